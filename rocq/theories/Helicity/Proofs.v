From Coq Require Import Reals ZArith List Lia Lra Bool Sorted.
From Coquelicot Require Import Complex.
From Verif.Common Require Import Prelude.
From Verif.Wigner Require Import Model Spec Proofs.
From Verif.Couplings Require Model Spec Proofs.
From Verif.Rotations Require Import Model Spec Proofs.
From Verif.Helicity Require Import Model Spec.
Import ListNotations.
Local Open Scope R_scope.

(** ** Sums *)
Lemma sumC_ext {A} (l : list A) f g : (forall a, In a l -> f a = g a) -> sumC l f = sumC l g.
Proof. induction l as [|a l IH]; intro H; [reflexivity|]. cbn. rewrite (H a) by (now left). f_equal. apply IH. intros; apply H; now right. Qed.
Lemma sumC_plus {A} (l : list A) f g : sumC l (fun a => f a + g a)%C = (sumC l f + sumC l g)%C.
Proof. induction l as [|a l IH]; cbn; [ring|]. unfold sumC in IH. rewrite IH. ring. Qed.
Lemma sumC_scal {A} (l : list A) c f : sumC l (fun a => c * f a)%C = (c * sumC l f)%C.
Proof. induction l as [|a l IH]; cbn; [ring|]. unfold sumC in IH. rewrite IH. ring. Qed.
Lemma sumC_0 {A} (l : list A) : sumC l (fun _ => RtoC 0) = RtoC 0.
Proof. induction l as [|a l IH]; cbn; [reflexivity|]. unfold sumC in IH. rewrite IH. ring. Qed.
Lemma sumC_swap {A B} (l : list A) (k : list B) f : sumC l (fun a => sumC k (fun b => f a b)) = sumC k (fun b => sumC l (fun a => f a b)).
Proof. induction l as [|a l IH]; cbn [sumC fold_right]; [symmetry; apply sumC_0|]. fold (sumC l (fun a => sumC k (fun b => f a b))). rewrite IH, <- sumC_plus. reflexivity. Qed.
Lemma sumC_real {A} (l : list A) f : sumC l (fun a => RtoC (f a)) = RtoC (sum_over l f).
Proof. induction l as [|a l IH]; cbn; [reflexivity|]. unfold sumC in IH. now rewrite IH, RtoC_plus. Qed.
Lemma sumC_conj {A} (l : list A) f : Cconj (sumC l f) = sumC l (fun a => Cconj (f a)).
Proof. induction l as [|a l IH]; cbn; [unfold Cconj, RtoC; cbn; f_equal; ring|]. unfold sumC in IH. rewrite <- IH. unfold Cconj, Cplus. cbn. f_equal. ring. Qed.

Lemma conj_mul (a b : C) : Cconj (a * b)%C = (Cconj a * Cconj b)%C.
Proof. unfold Cconj, Cmult. cbn. f_equal; ring. Qed.

(** ** Phases *)
Lemma unit_angle x y : x * x + y * y = 1 -> exists a, x = cos a /\ y = sin a.
Proof.
  intro H. assert (B : -1 <= x <= 1) by nra. destruct (Rle_dec 0 y).
  - exists (acos x). rewrite cos_acos by exact B. split; [reflexivity|]. rewrite sin_acos by exact B. symmetry. replace (1 - x²) with (y²) by (unfold Rsqr; lra). now apply sqrt_Rsqr.
  - exists (- acos x). rewrite cos_neg, sin_neg, cos_acos by exact B. split; [reflexivity|]. rewrite sin_acos by exact B. replace (1 - x²) with ((- y)²) by (unfold Rsqr; lra). rewrite sqrt_Rsqr by lra. ring.
Qed.
Definition cis (a : R) : C := (cos a, sin a).
Lemma cpow_cis a n : cpow (cis a) n = cis (INR n * a).
Proof.
  induction n as [|n IH]; [unfold cis; cbn; rewrite Rmult_0_l, cos_0, sin_0; reflexivity|]. cbn [cpow]. rewrite IH, S_INR. unfold cis, Cmult. cbn [fst snd].
  replace ((INR n + 1) * a) with (INR n * a + a) by ring. rewrite cos_plus, sin_plus. f_equal; ring.
Qed.
Lemma cis_conj a b : (cis a * Cconj (cis b))%C = cis (a - b).
Proof. unfold cis, Cmult, Cconj. cbn [fst snd]. rewrite cos_minus, sin_minus. f_equal; ring. Qed.
Lemma cfpow_cis a n : cfpow (cis a) n = cis (IZR n * a).
Proof.
  unfold cfpow. destruct (Z.ltb_spec n 0) as [Hn|Hn].
  - rewrite cpow_cis, INR_IZR_INZ, Z2Nat.id, opp_IZR by lia. set (b := - IZR n * a). assert (E : cis (IZR n * a) = cis (0 - b)) by (unfold b; f_equal; ring).
    rewrite E, <- cis_conj. pose proof (sin2_cos2 b) as Q. unfold Rsqr in Q. unfold cis, Cdiv, Cinv, Cmult, Cconj, RtoC. cbn [fst snd]. rewrite cos_0, sin_0.
    replace (cos b ^ 2 + sin b ^ 2) with 1 by (cbn; lra). f_equal; field.
  - rewrite cpow_cis, INR_IZR_INZ, Z2Nat.id by lia. reflexivity.
Qed.
Lemma ang P : pt2 P <> 0 -> exists c a b, angCoordinates P = Some (c, cis a) /\ 0 <= b <= PI /\ c = cos b.
Proof.
  destruct P as [[x y] z]. intro N. unfold angCoordinates. destruct (Req_EM_T (pt2 (x, y, z)) 0); [contradiction|]. cbn [pt2] in *.
  assert (Pt : 0 < x * x + y * y) by nra. assert (Pp : 0 < x * x + y * y + z * z) by nra.
  pose proof (sqrt_lt_R0 _ Pt) as S1. pose proof (sqrt_sqrt (x * x + y * y) (Rlt_le _ _ Pt)) as Q1. set (r := sqrt (x * x + y * y)) in *.
  pose proof (sqrt_lt_R0 _ Pp) as S2. pose proof (sqrt_sqrt (x * x + y * y + z * z) (Rlt_le _ _ Pp)) as Q2. set (s := sqrt (x * x + y * y + z * z)) in *.
  destruct (unit_angle (x / r) (y / r)) as (a & Ea & Eb); [replace (x / r * (x / r) + y / r * (y / r)) with ((x * x + y * y) / (r * r)) by (field; lra); rewrite Q1; field; lra|].
  assert (B : -1 <= z / s <= 1). { assert (z * z <= s * s) by nra. split; [apply (Rmult_le_reg_r s); [exact S2|]; replace (z / s * s) with z by (field; lra); nra|apply (Rmult_le_reg_r s); [exact S2|]; replace (z / s * s) with z by (field; lra); nra]. }
  exists (z / s), a, (acos (z / s)). split; [unfold cis; now rewrite <- Ea, <- Eb|]. split; [apply acos_bound|symmetry; now apply cos_acos].
Qed.

(** ** Rotations by columns *)
Lemma even_diff J M N : Z.even (J - M) = true -> Z.even (J - N) = true -> Z.even (M - N) = true.
Proof. intros A B. replace (M - N)%Z with ((J - N) - (J - M))%Z by lia. rewrite Z.even_sub, A, B. reflexivity. Qed.
Lemma phase_mul a b : Z.even a = true -> Z.even b = true -> phase a * phase b = phase (a + b).
Proof.
  intros A B. apply Z.even_spec in A as [p ->]. apply Z.even_spec in B as [q ->]. unfold phase. rewrite <- Z.mul_add_distr_l, !(Z.mul_comm 2), !Z.div_mul by lia. rewrite Z.even_add.
  destruct (Z.even p), (Z.even q); cbn; lra.
Qed.
Lemma phase_sq a b : Z.even a = true -> Z.even b = true -> phase a * phase b = phase (a - b).
Proof. intros A B. rewrite phase_mul by assumption. apply Z.even_spec in A as [p ->]. apply Z.even_spec in B as [q ->]. unfold phase. rewrite <- Z.mul_add_distr_l, <- Z.mul_sub_distr_l, !(Z.mul_comm 2), !Z.div_mul by lia. rewrite Z.even_add, Z.even_sub. reflexivity. Qed.
Lemma proj_all J : (0 <= J)%Z -> projections J = all_projections J.
Proof. intro H. unfold projections, all_projections. destruct (Z.ltb_spec J 0); [lia|reflexivity]. Qed.
Lemma sum_over_scal {A} (l : list A) c f : sum_over l (fun a => c * f a) = c * sum_over l f.
Proof. induction l as [|a l IH]; cbn; [ring|]. rewrite IH. ring. Qed.
Lemma columns J n n' a : projection J n -> projection J n' -> 0 <= a <= PI ->
  sum_over (projections J) (fun M => value (wigner_d (cos a) J M n) * value (wigner_d (cos a) J M n')) = if Z.eqb n n' then 1 else 0.
Proof.
  intros Hn Hn' Ha. assert (HJ : (0 <= J)%Z) by (destruct Hn; lia).
  transitivity (sum_over (projections J) (fun M => phase (n - n') * (value (wigner_d (cos a) J n M) * value (wigner_d (cos a) J n' M)))).
  - apply sum_ext. intros M I. apply in_projections in I.
    rewrite (transpose_d J n M a Hn I Ha), (transpose_d J n' M a Hn' I Ha).
    replace (phase (n - n')) with (phase (n - M) * phase (n' - M)); [ring|]. destruct Hn as [_ E1], Hn' as [_ E2], I as [_ E3].
    rewrite phase_sq by (apply (even_diff J); assumption). f_equal. lia.
  - rewrite sum_over_scal, proj_all by exact HJ. rewrite orthonormal_d by assumption. destruct (Z.eqb_spec n n') as [-> |]; [|ring].
    unfold phase. rewrite Z.sub_diag. cbn. ring.
Qed.
Lemma D_value J M n b a : projection J M -> projection J n -> 0 <= b <= PI ->
  wigner_D (cos b, cis a) J M n = Some (cis (IZR (Z.quot (n - M) 2) * a) * RtoC (value (wigner_d (cos b) J M n)))%C.
Proof.
  intros HM Hn Hb. unfold wigner_D. cbn [fst snd]. destruct (rotation J M b HM Hb) as [Ex _]. destruct (Ex n Hn) as [v Ev]. rewrite Ev. cbn [value].
  assert (E : Z.even (n - M) = true) by (destruct HM, Hn; now apply (even_diff J)). apply Z.even_spec in E as [k E]. rewrite E.
  replace (Z.rem (2 * k) 2) with 0%Z by (rewrite Z.mul_comm, Z.rem_mul; lia). cbn. now rewrite cfpow_cis.
Qed.
Definition Dval (a b : R) (J M n : Z) : C := (cis (IZR (Z.quot (n - M) 2) * a) * RtoC (value (wigner_d (cos b) J M n)))%C.
Lemma D_columns J n n' a b : projection J n -> projection J n' -> 0 <= b <= PI ->
  sumC (projections J) (fun M => Dval a b J M n * Cconj (Dval a b J M n'))%C = if Z.eqb n n' then RtoC 1 else RtoC 0.
Proof.
  intros Hn Hn' Hb. transitivity (sumC (projections J) (fun M => cis (IZR (Z.quot (n - n') 2) * a) * RtoC (value (wigner_d (cos b) J M n) * value (wigner_d (cos b) J M n')))%C).
  - apply sumC_ext. intros M I. apply in_projections in I. unfold Dval.
    assert (E1 : Z.even (n - M) = true) by (destruct Hn, I; now apply (even_diff J)). assert (E2 : Z.even (n' - M) = true) by (destruct Hn', I; now apply (even_diff J)).
    apply Z.even_spec in E1 as [k1 E1]. apply Z.even_spec in E2 as [k2 E2]. replace (n - n')%Z with (2 * (k1 - k2))%Z by lia. rewrite E1, E2.
    replace (Z.quot (2 * k1) 2) with k1 by (rewrite Z.mul_comm, Z.quot_mul; lia). replace (Z.quot (2 * k2) 2) with k2 by (rewrite Z.mul_comm, Z.quot_mul; lia).
    replace (Z.quot (2 * (k1 - k2)) 2) with (k1 - k2)%Z by (rewrite Z.mul_comm, Z.quot_mul; lia).
    rewrite minus_IZR, Rmult_minus_distr_r, <- cis_conj, RtoC_mult. set (u := value _). set (v := value _).
    unfold Cconj, Cmult, RtoC. cbn [fst snd]. f_equal; ring.
  - rewrite sumC_scal, sumC_real, columns by assumption. destruct (Z.eqb_spec n n') as [-> |]; [|ring].
    rewrite Z.sub_diag. cbn. rewrite Rmult_0_l. unfold cis. rewrite cos_0, sin_0. unfold Cmult, RtoC. cbn. f_equal; ring.
Qed.

(** ** Couplings *)
Lemma keep_in l : forall k f, keep l = Some k -> In f k -> In (Some f) l /\ f_factor f <> 0.
Proof.
  induction l as [|[g|] l IH]; intros k f E I; cbn in E; [injection E as <-; destruct I| |discriminate].
  destruct (keep l) as [k'|] eqn:K; [|discriminate]. injection E as <-. destruct (Req_EM_T (f_factor g) 0).
  - destruct (IH k' f eq_refl I). split; [now right|assumption].
  - destruct I as [<- | I]; [split; [now left|assumption]|]. destruct (IH k' f eq_refl I). split; [now right|assumption].
Qed.
Lemma recoupling_ok J L S j1 j2 : (0 <= J)%Z -> (0 <= S)%Z -> exists l, recoupling J L S j1 j2 = Some l /\
  (forall m1 m2, projection j1 m1 -> projection j2 m2 -> coefficient l m1 m2 = factor J L S j1 j2 m1 m2) /\
  forall f, In f l -> projection j1 (f_m1 f) /\ projection j2 (f_m2 f) /\ (- J <= f_m1 f - f_m2 f <= J)%Z.
Proof.
  intros HJ HS. destruct (recoupling_factor J L S j1 j2 HJ HS) as (l & E & V). exists l. split; [exact E|]. split; [exact V|]. intros f I.
  unfold recoupling in E. destruct (keep_in _ _ _ E I) as [I' N]. apply in_flat_map in I' as (m1 & I1 & I2). apply in_map_iff in I2 as (m2 & T & I2).
  apply in_projections in I1. apply in_projections in I2. unfold recoupling_term in T. rewrite !CG_cg in T by assumption. injection T as <-. cbn [f_m1 f_m2 f_factor] in *.
  split; [exact I1|]. split; [exact I2|]. destruct (Z_le_dec (- J) (m1 - m2)) as [|G]; [destruct (Z_le_dec (m1 - m2) J) as [|G]; [lia|]|]; exfalso; apply N.
  - pose proof (selection L 0 S (m1 - m2) J (m1 - m2) HJ) as Q. rewrite CG_cg in Q by exact HJ. assert (X : ~ allowed L 0 S (m1 - m2) J (m1 - m2)) by (unfold allowed; lia).
    specialize (Q X). injection Q as Q. rewrite Q. ring.
  - pose proof (selection L 0 S (m1 - m2) J (m1 - m2) HJ) as Q. rewrite CG_cg in Q by exact HJ. assert (X : ~ allowed L 0 S (m1 - m2) J (m1 - m2)) by (unfold allowed; lia).
    specialize (Q X). injection Q as Q. rewrite Q. ring.
Qed.
Lemma sum_terms_ok f g l : (forall c, In c l -> f c = Some (g c)) -> sum_terms f l = Some (sumC l g).
Proof.
  intro H. unfold sum_terms. assert (Q : forall k t, (forall c, In c k -> f c = Some (g c)) ->
    fold_left (fun t c => match t, f c with Some a, Some b => Some (a + b)%C | _, _ => None end) k (Some t) = Some (t + sumC k g)%C).
  { induction k as [|c k IH]; intros t Hk; cbn [fold_left sumC fold_right]; [f_equal; ring|]. rewrite (Hk c) by (now left). rewrite IH by (intros; apply Hk; now right).
    f_equal. unfold sumC. ring. }
  rewrite Q by exact H. f_equal. ring.
Qed.

(** The spin that is chosen: the least one. *)
Definition ahead (a b : Z * Z) : Prop := (fst a < fst b)%Z \/ (fst a = fst b /\ (snd a < snd b)%Z).
Lemma sorted_flat {A} (R : A -> A -> Prop) {B} (f : B -> list A) (Q : B -> B -> Prop) l : StronglySorted Q l -> (forall b, In b l -> StronglySorted R (f b)) ->
  (forall b b' x y, Q b b' -> In x (f b) -> In y (f b') -> R x y) -> StronglySorted R (flat_map f l).
Proof.
  intros Hs H1 H2. induction Hs as [|b l Hl IH F]; [constructor|]. cbn [flat_map].
  assert (G : forall u v, StronglySorted R u -> StronglySorted R v -> (forall x y, In x u -> In y v -> R x y) -> StronglySorted R (u ++ v)).
  { intros u v Hu Hv Huv. induction Hu as [|x u Hu IHu Fx]; [exact Hv|]. cbn. constructor; [apply IHu; intros; apply Huv; [now right|assumption]|].
    apply Forall_app. split; [exact Fx|]. rewrite Forall_forall. intros y Iy. apply Huv; [now left|exact Iy]. }
  apply G; [apply H1; now left|apply IH; intros; apply H1; now right|]. intros x y Ix Iy. apply in_flat_map in Iy as (b' & Ib & Iy). rewrite Forall_forall in F. apply (H2 b b'); auto.
Qed.
Lemma upto_sorted a b k : (0 < k)%Z -> StronglySorted Z.lt (Couplings.Model.upto a b k).
Proof.
  intro Hk. unfold Couplings.Model.upto. generalize (Z.to_nat ((b - a) / k + 1)) as n. generalize 0%nat as s. intros s n. revert s. induction n as [|n IH]; intro s; [constructor|].
  cbn [seq map]. constructor; [apply IH|]. rewrite Forall_forall. intros x I. apply in_map_iff in I as (i & <- & I). apply in_seq in I. nia.
Qed.
Lemma in_if {A} (a b : bool) (v x : A) : In x ((if a then [v] else []) ++ (if b then [v] else [])) -> x = v.
Proof. destruct a, b; cbn; intuition congruence. Qed.
Lemma couplings_sorted p d1 d2 c l : Couplings.Model.spinOrbitCouplings p [d1; d2] c = Ok l -> StronglySorted ahead l.
Proof.
  unfold Couplings.Model.spinOrbitCouplings. destruct (Couplings.Model.orbitalRange p [d1; d2] c) as [u v]. intro E.
  apply (f_equal (fun r => match r with Ok x => x | _ => [] end)) in E. cbn iota beta in E. rewrite <- E. clear E l.
  apply (sorted_flat ahead _ Z.lt); [apply upto_sorted; lia| |].
  - intros l _. destruct (c && negb (Couplings.Model.conservesParity p d1 d2 l)); [constructor|]. apply (sorted_flat ahead _ Z.lt); [apply upto_sorted; lia| |].
    + intros s0 _. cbv zeta. destruct (negb (Z.eqb (2 * l) 0)) eqn:A, (negb (Z.eqb s0 0)) eqn:B; destruct (Z.eqb (2 * l) 0) eqn:A', (Z.eqb s0 0) eqn:B'; try discriminate; cbn [andb orb app];
        repeat match goal with |- context [if ?x then _ else _] => destruct x end; cbn [app]; repeat constructor.
    + intros s0 s1 x y Hlt Ix Iy. cbv zeta in *. right. apply in_if in Ix. apply in_if in Iy.
      subst. cbn. split; [reflexivity|exact Hlt].
  - intros l l' x y Hlt Ix Iy. left.
    assert (F : forall l x, In x (if c && negb (Couplings.Model.conservesParity p d1 d2 l) then [] else flat_map (fun S0 => let L := (2 * l)%Z in let z2 := (Couplings.Model.twoSpin p * Couplings.Model.twoSpin p - L * L - S0 * S0)%Z in
       (if negb (L =? 0) && negb (S0 =? 0) && (Z.abs z2 <=? 2 * L * S0) then [(L, S0)] else []) ++ (if ((L =? 0) || (S0 =? 0)) && (z2 =? 0) then [(L, S0)] else []))%Z
         (Couplings.Model.upto (Z.abs (Couplings.Model.twoSpin d1 - Couplings.Model.twoSpin d2)) (Couplings.Model.twoSpin d1 + Couplings.Model.twoSpin d2) 2)) -> fst x = (2 * l)%Z).
    { intros l0 x0 I. destruct (_ && _) in I; [destruct I|]. apply in_flat_map in I as (s0 & _ & I). cbv zeta in I. apply in_if in I. now rewrite I. }
    rewrite (F l x Ix), (F l' y Iy). lia.
Qed.
Lemma find_least (l : list (Z * Z)) L : StronglySorted ahead l ->
  match option_map snd (find (fun c => Z.eqb (fst c) L) l) with
  | Some s => In (L, s) l /\ forall s', In (L, s') l -> (s <= s')%Z
  | None => forall s', ~ In (L, s') l
  end.
Proof.
  induction 1 as [|[x s] l Hl IH F]; [intros s' []|]. cbn [find fst]. destruct (Z.eqb_spec x L) as [-> | N].
  - cbn. split; [now left|]. intros s' [E|I]; [injection E as ->; lia|]. rewrite Forall_forall in F. destruct (F _ I) as [G|[_ G]]; cbn in G; lia.
  - destruct (option_map snd (find (fun c => Z.eqb (fst c) L) l)) as [s'|].
    + destruct IH as [I1 I2]. split; [now right|]. intros s'' [E|I]; [congruence|auto].
    + intros s' [E|I]; [congruence|]. exact (IH s' I).
Qed.
Lemma chosen_least J L j1 j2 : (0 <= J)%Z -> (0 <= j1)%Z -> (0 <= j2)%Z -> Z.even (J + j1 + j2) = true ->
  match chosen_S J L 0 j1 j2 with
  | Some s => wave J L s j1 j2 /\ forall s', wave J L s' j1 j2 -> (s <= s')%Z
  | None => forall s', ~ wave J L s' j1 j2
  end.
Proof.
  intros HJ H1 H2 He. unfold chosen_S. cbn [Z.eqb].
  destruct (Couplings.Proofs.couplings_ok (Couplings.Model.State J 0) (Couplings.Model.State j1 0) (Couplings.Model.State j2 0) false) as (l & E & _ & Hin); [now split|exact He|].
  rewrite E. pose proof (find_least l L (couplings_sorted _ _ _ _ _ E)) as Q.
  assert (W : forall s, In (L, s) l <-> wave J L s j1 j2).
  { intro s. rewrite Hin. unfold Couplings.Spec.allowed, Couplings.Spec.triangle, wave, couples. cbn [Couplings.Model.twoSpin].
    assert (Ev : forall a b, Z.even (a - b) = Z.even (a + b)) by (intros a b; rewrite Z.even_sub, Z.even_add; reflexivity). split.
    - intros (k & -> & (A & (B & C) & D & F) & _). split; [now rewrite Z.even_mul|]. split; [lia|]. rewrite !Ev. repeat split; try assumption; lia.
    - intros (A & A' & (B & C) & D & F). apply Z.even_spec in A as [k ->]. rewrite Ev in C, F. exists k. split; [reflexivity|]. split; [|discriminate]. repeat split; try assumption; lia. }
  destruct (option_map snd (find (fun c => Z.eqb (fst c) L) l)) as [s|].
  - destruct Q as [Q1 Q2]. split; [now apply W|]. intros s' Hs. apply Q2. now apply W.
  - intros s' Hs. apply (Q s'). now apply W.
Qed.
Lemma sound_spin d : sound d -> (0 <= spin d)%Z.
Proof. induction d; cbn; try tauto. intros [<- H]. now apply IHd. Qed.
Lemma chosen_some J L S j1 j2 : (0 <= J)%Z -> (0 <= S)%Z -> (0 <= j1)%Z -> (0 <= j2)%Z -> Z.even (J + j1 + j2) = true -> (S = 0%Z -> exists s, wave J L s j1 j2) ->
  exists s, chosen_S J L S j1 j2 = Some s /\ (0 <= s)%Z.
Proof.
  intros HJ HS H1 H2 He H. destruct (Z.eq_dec S 0) as [-> | N].
  - pose proof (chosen_least J L j1 j2 HJ H1 H2 He) as Q. destruct (chosen_S J L 0 j1 j2) as [s|].
    + exists s. split; [reflexivity|]. destruct Q as [(_ & _ & [A _] & _) _]. lia.
    + destruct (H eq_refl) as [s Hs]. now destruct (Q s).
  - exists S. unfold chosen_S. destruct (Z.eqb_spec S 0); [contradiction|]. now split.
Qed.

(** ** The amplitude as a sum of rotation functions *)
Lemma dm_projection J j1 j2 m1 m2 : Z.even (J + j1 + j2) = true -> projection j1 m1 -> projection j2 m2 -> (- J <= m1 - m2 <= J)%Z -> projection J (m1 - m2).
Proof.
  intros He [_ E1] [_ E2] B. split; [exact B|]. replace (J - (m1 - m2))%Z with ((J + j1 + j2) + (j1 - m1) - (j2 - m2) - 2 * j1)%Z by lia. rewrite !Z.even_sub, !Z.even_add.
  rewrite !Z.even_add in He. rewrite Z.even_sub in E1, E2. rewrite Z.even_mul, Z.even_sub. destruct (Z.even J), (Z.even j1), (Z.even j2), (Z.even m1), (Z.even m2); cbn in *; congruence.
Qed.
Definition coef (d1 d2 : decay) (A1 A2 : Z -> C) (c : LS) : C :=
  if (isPhoton d1 && Z.eqb (f_m1 c) 0) || (isPhoton d2 && Z.eqb (f_m2 c) 0) then RtoC 0 else (RtoC (f_factor c) * A1 (f_m1 c) * A2 (f_m2 c))%C.
Lemma decay_form J L S0 s d1 d2 A1 A2 : (0 <= J)%Z -> (0 <= s)%Z -> Z.even (J + spin d1 + spin d2) = true -> chosen_S J L S0 (spin d1) (spin d2) = Some s ->
  amplitudes d1 A1 -> amplitudes d2 A2 -> exists l, recoupling J L s (spin d1) (spin d2) = Some l /\
   (forall c, In c l -> projection J (f_m1 c - f_m2 c)) /\
   forall P a b, angCoordinates P = Some (cos b, cis a) -> 0 <= b <= PI -> forall M, projection J M ->
     helicityAmplitude (Decay J L S0 P d1 d2) M = Some (sumC l (fun c => coef d1 d2 A1 A2 c * Dval a b J M (f_m1 c - f_m2 c))%C).
Proof.
  intros HJ Hs He Hc H1 H2. destruct (recoupling_ok J L s (spin d1) (spin d2) HJ Hs) as (l & El & _ & Hl). exists l.
  assert (Hp : forall c, In c l -> projection J (f_m1 c - f_m2 c)). { intros c I. destruct (Hl c I) as (P1 & P2 & B). exact (dm_projection J _ _ _ _ He P1 P2 B). }
  split; [exact El|]. split; [exact Hp|]. intros P a b EP Hb M HM. cbn [helicityAmplitude]. rewrite Hc, El, EP. apply sum_terms_ok. intros c I. unfold coef.
  destruct (_ || _); [f_equal; ring|]. rewrite (D_value J M _ b a HM (Hp c I) Hb). destruct (Hl c I) as (P1 & P2 & _). rewrite (H1 _ P1), (H2 _ P2). f_equal. unfold Dval. ring.
Qed.
Lemma amplitudes_exist d : sound d -> exists A, amplitudes d A.
Proof.
  induction d as [g J o|J d IH|J|J L S0 P d1 IH1 d2 IH2]; intro H.
  - cbn in H. unfold amplitudes. cbn. destruct (Z.eqb_spec J 0); [eexists; intros M _; reflexivity|]. replace (Z.eqb J 1 || Z.eqb J 2)%bool with true; [eexists; intros M _; reflexivity|].
    destruct (Z.eqb_spec J 1), (Z.eqb_spec J 2); try reflexivity. lia.
  - destruct H as [E H]. destruct (IH H) as [A HA]. exists A. intros M HM. cbn in *. rewrite <- E in HM. now apply HA.
  - exists (fun _ => RtoC 1). intros M _. reflexivity.
  - destruct H as (HJ & HS & HP & He & Hw & Hd1 & Hd2). destruct (IH1 Hd1) as [A1 H1]. destruct (IH2 Hd2) as [A2 H2].
    destruct (chosen_some J L S0 _ _ HJ HS (sound_spin _ Hd1) (sound_spin _ Hd2) He Hw) as (s & Es & Hs).
    destruct (decay_form J L S0 s d1 d2 A1 A2 HJ Hs He Es H1 H2) as (l & _ & _ & F). destruct (ang P HP) as (c & a & b & EP & Hb & ->).
    eexists. intros M HM. exact (F P a b EP Hb M HM).
Qed.
Lemma form J L S0 P d1 d2 : sound (Decay J L S0 P d1 d2) -> exists l (k : LS -> C), (forall c, In c l -> projection J (f_m1 c - f_m2 c)) /\
  forall P a b, angCoordinates P = Some (cos b, cis a) -> 0 <= b <= PI -> amplitudes (Decay J L S0 P d1 d2) (fun M => sumC l (fun c => k c * Dval a b J M (f_m1 c - f_m2 c))%C).
Proof.
  intros (HJ & HS & HP & He & Hw & Hd1 & Hd2). destruct (amplitudes_exist _ Hd1) as [A1 H1]. destruct (amplitudes_exist _ Hd2) as [A2 H2].
  destruct (chosen_some J L S0 _ _ HJ HS (sound_spin _ Hd1) (sound_spin _ Hd2) He Hw) as (s & Es & Hs).
  destruct (decay_form J L S0 s d1 d2 A1 A2 HJ Hs He Es H1 H2) as (l & _ & Hl & F). exists l, (coef d1 d2 A1 A2). split; [exact Hl|]. intros P' a b EP Hb M HM. exact (F P' a b EP Hb M HM).
Qed.
Lemma overlap_sum J l l' (k k' : LS -> C) a b : (forall c, In c l -> projection J (f_m1 c - f_m2 c)) -> (forall c, In c l' -> projection J (f_m1 c - f_m2 c)) -> 0 <= b <= PI ->
  sumC (projections J) (fun M => sumC l (fun c => k c * Dval a b J M (f_m1 c - f_m2 c)) * Cconj (sumC l' (fun c => k' c * Dval a b J M (f_m1 c - f_m2 c))))%C =
  sumC l (fun c => sumC l' (fun c' => k c * Cconj (k' c') * (if Z.eqb (f_m1 c - f_m2 c) (f_m1 c' - f_m2 c') then RtoC 1 else RtoC 0)))%C.
Proof.
  intros Hl Hl' Hb. transitivity (sumC (projections J) (fun M => sumC l (fun c => sumC l' (fun c' => k c * Cconj (k' c') * (Dval a b J M (f_m1 c - f_m2 c) * Cconj (Dval a b J M (f_m1 c' - f_m2 c'))))))%C).
  - apply sumC_ext. intros M _. rewrite sumC_conj, Cmult_comm, <- sumC_scal. apply sumC_ext. intros c _. rewrite Cmult_comm, <- sumC_scal. apply sumC_ext. intros c' _. rewrite conj_mul. ring.
  - rewrite sumC_swap. apply sumC_ext. intros c I. rewrite sumC_swap. apply sumC_ext. intros c' I'. rewrite sumC_scal. f_equal. apply D_columns; auto.
Qed.
Lemma rate J L S0 L' S' d1 d2 e1 e2 P Q : sound (Decay J L S0 P d1 d2) -> sound (Decay J L' S' P e1 e2) -> pt2 Q <> 0 ->
  exists A B A' B', amplitudes (Decay J L S0 P d1 d2) A /\ amplitudes (Decay J L' S' P e1 e2) B /\ amplitudes (Decay J L S0 Q d1 d2) A' /\ amplitudes (Decay J L' S' Q e1 e2) B' /\
    sumC (projections J) (fun M => A M * Cconj (B M))%C = sumC (projections J) (fun M => A' M * Cconj (B' M))%C.
Proof.
  intros H H' HQ. assert (HP : pt2 P <> 0) by (destruct H as (_ & _ & X & _); exact X).
  destruct (form _ _ _ _ _ _ H) as (l & k & Hl & F). destruct (form _ _ _ _ _ _ H') as (l' & k' & Hl' & F').
  destruct (ang P HP) as (cP & a & b & EP & Hb & ->). destruct (ang Q HQ) as (cQ & a' & b' & EQ & Hb' & ->).
  do 4 eexists. split; [exact (F P a b EP Hb)|]. split; [exact (F' P a b EP Hb)|]. split; [exact (F Q a' b' EQ Hb')|]. split; [exact (F' Q a' b' EQ Hb')|]. rewrite !overlap_sum by assumption. reflexivity.
Qed.

(** ** Partial waves *)
Lemma sumC_cons {A} (a : A) l f : sumC (a :: l) f = (f a + sumC l f)%C.
Proof. reflexivity. Qed.
Lemma sumC_app {A} (l k : list A) f : sumC (l ++ k) f = (sumC l f + sumC k f)%C.
Proof. induction l as [|a l IH]; [symmetry; apply Cplus_0_l|]. rewrite <- app_comm_cons, !sumC_cons, IH. apply Cplus_assoc. Qed.
Lemma sumC_map {A B} (g : A -> B) l f : sumC (map g l) f = sumC l (fun a => f (g a)).
Proof. induction l as [|a l IH]; cbn; [reflexivity|]. unfold sumC in IH. now rewrite IH. Qed.
Lemma sumC_flat {A B} (g : A -> list B) l f : sumC (flat_map g l) f = sumC l (fun a => sumC (g a) f).
Proof. induction l as [|a l IH]; [reflexivity|]. cbn [flat_map]. rewrite sumC_app, IH. reflexivity. Qed.
Lemma sumC_pick {A} (dec : forall x y : A, {x = y} + {x <> y}) (l : list A) x (f : A -> C) : NoDup l -> In x l -> (forall y, y <> x -> f y = RtoC 0) -> sumC l f = f x.
Proof.
  intros N I Z0. induction N as [|a l Na Nl IH]; [destruct I|]. cbn [sumC fold_right]. fold (sumC l f). destruct (dec a x) as [-> | E].
  - rewrite (sumC_ext l f (fun _ => RtoC 0)), sumC_0; [ring|]. intros y Iy. apply Z0. intros ->. contradiction.
  - destruct I as [|I]; [contradiction|]. rewrite (IH I), (Z0 a E). ring.
Qed.
Lemma keep_sum (h : LS -> C) : (forall f, f_factor f = 0 -> h f = RtoC 0) -> forall l k, keep l = Some k ->
  sumC k h = sumC l (fun o => match o with Some f => h f | None => RtoC 0 end).
Proof.
  intros H. induction l as [|[g|] l IH]; intros k E; cbn in E; [injection E as <-; reflexivity| |discriminate]. destruct (keep l) as [k'|] eqn:K; [|discriminate].
  injection E as <-. cbn [sumC fold_right]. fold (sumC l (fun o => match o with Some f => h f | None => RtoC 0 end)). rewrite <- (IH k' eq_refl).
  destruct (Req_EM_T (f_factor g) 0) as [Z0|]; [rewrite (H g Z0); ring|reflexivity].
Qed.
Lemma recoupling_sum J L s j1 j2 l (g : Z -> Z -> C) : (0 <= J)%Z -> (0 <= s)%Z -> recoupling J L s j1 j2 = Some l ->
  sumC l (fun c => RtoC (f_factor c) * g (f_m1 c) (f_m2 c))%C = sumC (projections j1) (fun m1 => sumC (projections j2) (fun m2 => RtoC (factor J L s j1 j2 m1 m2) * g m1 m2))%C.
Proof.
  intros HJ Hs E. unfold recoupling in E. rewrite (keep_sum _ (fun f Z0 => eq_trans (f_equal (fun r => (RtoC r * g (f_m1 f) (f_m2 f))%C) Z0) (Cmult_0_l _)) _ _ E).
  rewrite sumC_flat. apply sumC_ext. intros m1 I1. rewrite sumC_map. apply sumC_ext. intros m2 I2. unfold recoupling_term. rewrite !CG_cg by assumption. cbn [f_factor f_m1 f_m2].
  unfold factor. rewrite !CG_cg by assumption. reflexivity.
Qed.
Lemma wave_ok J L s j1 j2 : wave J L s j1 j2 -> (0 <= J /\ 0 <= s /\ 0 <= j1 /\ 0 <= j2)%Z /\ Z.even (J + j1 + j2) = true.
Proof.
  intros (EL & HL & [A1 A2] & B1 & B2). split; [lia|]. rewrite !Z.even_add. rewrite Z.even_sub, Z.even_add in A2, B2. rewrite EL in B2.
  destruct (Z.even J), (Z.even j1), (Z.even j2), (Z.even s); cbn in *; congruence.
Qed.
Lemma wave_chosen J L s j1 j2 : wave J L s j1 j2 -> chosen_S J L s j1 j2 = Some s.
Proof.
  intro W. destruct (wave_ok _ _ _ _ _ W) as ((HJ & Hs & H1 & H2) & He). destruct (Z.eq_dec s 0) as [-> | N]; [|unfold chosen_S; now destruct (Z.eqb_spec s 0)].
  pose proof (chosen_least J L j1 j2 HJ H1 H2 He) as Q. destruct (chosen_S J L 0 j1 j2) as [s|]; [|now destruct (Q 0%Z)]. destruct Q as [W' Q]. specialize (Q _ W).
  destruct (wave_ok _ _ _ _ _ W') as ((_ & Hs' & _) & _). f_equal. lia.
Qed.
Lemma state_form J L s j1 j2 l1 l2 d1 d2 P a b : wave J L s j1 j2 -> projection j1 l1 -> projection j2 l2 -> definite d1 j1 l1 -> definite d2 j2 l2 -> angCoordinates P = Some (cos b, cis a) -> 0 <= b <= PI ->
  amplitudes (Decay J L s P d1 d2) (fun M => RtoC (factor J L s j1 j2 l1 l2) * Dval a b J M (l1 - l2))%C.
Proof.
  intros W H1 H2 (S1 & G1 & A1) (S2 & G2 & A2) EP Hb M HM. destruct (wave_ok _ _ _ _ _ W) as ((HJ & Hs & Hj1 & Hj2) & He).
  pose proof (wave_chosen _ _ _ _ _ W) as Ch. rewrite <- S1, <- S2 in He, Ch.
  destruct (decay_form J L s s d1 d2 _ _ HJ Hs He Ch A1 A2) as (l & El & _ & F).
  rewrite (F P a b EP Hb M HM). f_equal. unfold coef. rewrite G1, G2. cbn [andb orb]. rewrite S1, S2 in El.
  set (g := fun m1 m2 => ((if Z.eqb m1 l1 then RtoC 1 else RtoC 0) * (if Z.eqb m2 l2 then RtoC 1 else RtoC 0) * Dval a b J M (m1 - m2))%C).
  transitivity (sumC l (fun c => RtoC (f_factor c) * g (f_m1 c) (f_m2 c))%C); [apply sumC_ext; intros c _; unfold g; ring|].
  rewrite (recoupling_sum J L s j1 j2 l g HJ Hs El). rewrite (sumC_pick Z.eq_dec _ l1 _ (nodup_projections j1)).
  - rewrite (sumC_pick Z.eq_dec _ l2 _ (nodup_projections j2)).
    + unfold g. rewrite !Z.eqb_refl. ring.
    + now apply in_projections.
    + intros y Hy. unfold g. destruct (Z.eqb_spec y l2); [contradiction|]. ring.
  - now apply in_projections.
  - intros y Hy. rewrite (sumC_ext _ _ (fun _ => RtoC 0)); [apply sumC_0|]. intros z _. unfold g. destruct (Z.eqb_spec y l1); [contradiction|]. ring.
Qed.
Lemma factor_outside J L s j1 j2 m1 m2 : (0 <= J)%Z -> ~ (- J <= m1 - m2 <= J)%Z -> factor J L s j1 j2 m1 m2 = 0.
Proof.
  intros HJ N. unfold factor. pose proof (selection L 0 s (m1 - m2) J (m1 - m2) HJ) as Q. assert (X : ~ allowed L 0 s (m1 - m2) J (m1 - m2)) by (unfold allowed; lia).
  rewrite (Q X). cbn [value]. ring.
Qed.
Lemma waves J L s L' s' j1 j2 (d1 d2 : Z -> decay) P : wave J L s j1 j2 -> wave J L' s' j1 j2 -> pt2 P <> 0 ->
  (forall m, projection j1 m -> definite (d1 m) j1 m) -> (forall m, projection j2 m -> definite (d2 m) j2 m) -> exists A A' : Z -> Z -> Z -> C,
  (forall l1 l2, projection j1 l1 -> projection j2 l2 -> amplitudes (Decay J L s P (d1 l1) (d2 l2)) (A l1 l2) /\ amplitudes (Decay J L' s' P (d1 l1) (d2 l2)) (A' l1 l2)) /\
  sumC (projections j1) (fun l1 => sumC (projections j2) (fun l2 => sumC (projections J) (fun M => A l1 l2 M * Cconj (A' l1 l2 M)))) %C = if (Z.eqb L L' && Z.eqb s s')%bool then RtoC 1 else RtoC 0.
Proof.
  intros W W' HP D1 D2. destruct (ang P HP) as (c & a & b & EP & Hb & ->).
  exists (fun l1 l2 M => RtoC (factor J L s j1 j2 l1 l2) * Dval a b J M (l1 - l2))%C, (fun l1 l2 M => RtoC (factor J L' s' j1 j2 l1 l2) * Dval a b J M (l1 - l2))%C. split.
  - intros l1 l2 H1 H2. split; apply (state_form _ _ _ j1 j2); auto.
  - destruct (wave_ok _ _ _ _ _ W) as ((HJ & Hs & Hj1 & Hj2) & He). transitivity (RtoC (if ((L =? L') && (s =? s'))%Z%bool then 1 else 0)); [|now destruct (_ && _)].
    destruct W as (EL & _ & C1 & C2), W' as (EL' & _ & C1' & C2'). rewrite <- (recoupling_orthonormal J L s L' s' j1 j2) by assumption. rewrite <- sumC_real. apply sumC_ext. intros l1 I1.
    rewrite <- sumC_real. apply sumC_ext. intros l2 I2. apply in_projections in I1. apply in_projections in I2.
    transitivity (sumC (projections J) (fun M => RtoC (factor J L s j1 j2 l1 l2 * factor J L' s' j1 j2 l1 l2) * (Dval a b J M (l1 - l2) * Cconj (Dval a b J M (l1 - l2)))))%C.
    { apply sumC_ext. intros M _. rewrite conj_mul, RtoC_mult. replace (Cconj (RtoC (factor J L' s' j1 j2 l1 l2))) with (RtoC (factor J L' s' j1 j2 l1 l2)) by (unfold Cconj, RtoC; cbn; f_equal; ring). ring. }
    rewrite sumC_scal. destruct (Z_le_dec (- J) (l1 - l2)) as [G|G]; [destruct (Z_le_dec (l1 - l2) J) as [G'|G']|].
    + pose proof (dm_projection J j1 j2 l1 l2 He I1 I2 (conj G G')) as Pm. rewrite D_columns by assumption. rewrite Z.eqb_refl. ring.
    + rewrite (factor_outside J L s) by lia. rewrite Rmult_0_l. ring.
    + rewrite (factor_outside J L s) by lia. rewrite Rmult_0_l. ring.
Qed.

(** ** Keys *)
Lemma itree_ind' (P : itree -> Prop) : (forall i, P (Leaf i)) -> (forall ds, Forall P ds -> P (Node ds)) -> forall t, P t.
Proof. intros H1 H2. fix IH 1. intros [i|ds]; [apply H1|]. apply H2. induction ds as [|d ds IHds]; constructor; [apply IH|exact IHds]. Qed.
Lemma digit_head t : one_digit t -> exists c r, index_string t = c :: r /\ c <> "}"%char.
Proof.
  destruct t as [i|ds]; cbn [one_digit index_string]; intro H; [|exists "{"%char; eexists; split; [reflexivity|discriminate]].
  do 10 (destruct i as [|i]; [eexists; eexists; split; [reflexivity|discriminate]|]). lia.
Qed.
Lemma digit_one i : (i < 10)%nat -> exists c, Events.Model.to_string i = [c] /\ c <> "{"%char.
Proof. intro H. do 10 (destruct i as [|i]; [eexists; split; [reflexivity|discriminate]|]). lia. Qed.
Lemma digit_inj i j : (i < 10)%nat -> (j < 10)%nat -> Events.Model.to_string i = Events.Model.to_string j -> i = j.
Proof. intros Hi Hj. do 10 (destruct i as [|i]; [do 10 (destruct j as [|j]; [first [reflexivity|discriminate]|]); lia|]). lia. Qed.
Lemma key_prefix t : forall t' r r', one_digit t -> one_digit t' -> index_string t ++ r = index_string t' ++ r' -> t = t' /\ r = r'.
Proof.
  induction t as [i|ds IH] using itree_ind'; intros [i'|ds'] r r' H H' E; cbn [one_digit index_string] in *.
  - destruct (digit_one i H) as (c & Ec & _), (digit_one i' H') as (c' & Ec' & _). rewrite Ec, Ec' in E. cbn in E. injection E as E1 E2. split; [|exact E2]. f_equal. apply digit_inj; congruence.
  - destruct (digit_one i H) as (c & Ec & N). rewrite Ec in E. cbn in E. congruence.
  - destruct (digit_one i' H') as (c & Ec & N). rewrite Ec in E. cbn in E. congruence.
  - cbn [app] in E. injection E as E. rewrite <- !app_assoc in E. cbn [app] in E.
    cut (ds = ds' /\ r = r'); [intros [-> ->]; now split|]. revert ds' H' E. induction IH as [|d ds Hd _ IHds]; intros [|d' ds'] H' E; cbn [flat_map fold_right] in *.
    + cbn in E. injection E as E. now split.
    + destruct H' as [H' _]. destruct (digit_head d' H') as (c & q & Ec & N). rewrite Ec in E. cbn in E. congruence.
    + destruct H as [H _]. destruct (digit_head d H) as (c & q & Ec & N). rewrite Ec in E. cbn in E. congruence.
    + destruct H as [Ha Hb], H' as [Ha' Hb']. rewrite <- !app_assoc in E. destruct (Hd _ _ _ Ha Ha' E) as [-> E']. destruct (IHds Hb ds' Hb' E') as [-> ->]. now split.
Qed.
