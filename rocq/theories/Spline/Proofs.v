From Coq Require Import Reals List ZArith Lra Lia Psatz.
From Verif.Wigner Require Import Sums.
From Verif.Spline Require Import Model Spec.
Import ListNotations.
Local Open Scope R_scope.

(** ** Truncation *)
Lemma int_part_unique x z : IZR z <= x < IZR z + 1 -> Int_part x = z.
Proof.
  intros [H1 H2]. unfold Int_part. pose proof (archimed x) as [A B].
  assert (IZR z < IZR (up x)) by lra. assert (IZR (up x) < IZR (z + 2)) by (rewrite plus_IZR; lra).
  apply lt_IZR in H, H0. lia.
Qed.
Lemma int_part_bounds x : IZR (Int_part x) <= x < IZR (Int_part x) + 1.
Proof. unfold Int_part. pose proof (archimed x) as [A B]. rewrite minus_IZR. lra. Qed.
Lemma trunc_unique x z : 0 <= x -> IZR z <= x < IZR z + 1 -> trunc x = z.
Proof. intros H0 H. unfold trunc. destruct (Rle_dec 0 x); [now apply int_part_unique|contradiction]. Qed.
Lemma nat_part x : 0 <= x -> exists k, INR k <= x < INR k + 1 /\ trunc x = Z.of_nat k.
Proof.
  intro H. pose proof (int_part_bounds x) as B. exists (Z.to_nat (Int_part x)).
  assert (0 <= Int_part x)%Z. { apply Z.lt_succ_r. apply lt_IZR. unfold Z.succ. rewrite plus_IZR. lra. }
  rewrite INR_IZR_INZ, Z2Nat.id by assumption. split; [exact B|]. now apply trunc_unique.
Qed.
Lemma element_at mem size a k : INR k <= a < INR k + 1 -> a < size -> element mem size a = nth_error mem k.
Proof.
  intros H S. unfold element, offset. pose proof (pos_INR k). destruct (Rle_dec 0 a); [|lra]. destruct (Rlt_dec a size); [|lra].
  rewrite (trunc_unique a (Z.of_nat k)); [now rewrite Nat2Z.id|lra|]. now rewrite <- INR_IZR_INZ.
Qed.
Lemma fmod_at x h k : 0 < h -> INR k * h <= x < (INR k + 1) * h -> fmod x h = x - INR k * h.
Proof.
  intros Hh H. unfold fmod. pose proof (pos_INR k). rewrite (trunc_unique (x / h) (Z.of_nat k)); rewrite <- ?INR_IZR_INZ; [reflexivity| |].
  - apply Rmult_le_pos; [nra|]. left. now apply Rinv_0_lt_compat.
  - split; [apply Rmult_le_reg_r with h; [lra|]|apply Rmult_lt_reg_r with h; [lra|]]; unfold Rdiv; rewrite Rmult_assoc, Rinv_l by lra; lra.
Qed.

(** ** Sums *)
Lemma total_sum n f : total n f = sum n f.
Proof.
  destruct n as [|n]; [reflexivity|]. cbn [total]. induction n as [|n IH]; [cbn; ring|]. cbn [sig]. rewrite IH. reflexivity.
Qed.
Lemma sum_ext n f g : (forall i, (i < n)%nat -> f i = g i) -> sum n f = sum n g.
Proof. induction n as [|n IH]; intro H; cbn; [reflexivity|]. rewrite IH, H by (auto; lia). reflexivity. Qed.
Lemma sum_plus n f g : sum n (fun i => f i + g i) = sum n f + sum n g.
Proof. induction n as [|n IH]; cbn; [ring|]. rewrite IH. ring. Qed.
Lemma sum_scal n c f : sum n (fun i => c * f i) = c * sum n f.
Proof. induction n as [|n IH]; cbn; [ring|]. rewrite IH. ring. Qed.
Lemma sum_zero n f : (forall i, (i < n)%nat -> f i = 0) -> sum n f = 0.
Proof. induction n as [|n IH]; intro H; cbn; [reflexivity|]. rewrite IH, H by (auto; lia). ring. Qed.
Lemma sum_swap n m f : sum n (fun i => sum m (fun k => f i k)) = sum m (fun k => sum n (fun i => f i k)).
Proof. induction n as [|n IH]; cbn; [symmetry; now apply sum_zero|]. rewrite IH, <- sum_plus. reflexivity. Qed.
Lemma sum_one n f i : (i < n)%nat -> (forall k, (k < n)%nat -> k <> i -> f k = 0) -> sum n f = f i.
Proof.
  intros Hi H. induction n as [|n IH]; [lia|]. cbn. destruct (Nat.eq_dec i n) as [-> | E].
  - rewrite sum_zero; [ring|]. intros k Hk. apply H; lia.
  - rewrite IH, (H n) by (auto; lia). ring.
Qed.
Lemma sum_band n k m : (k < n)%nat ->
  sum n (fun j => band k j * m (S j)) = (if Nat.eqb k 0 then 0 else m k) + 4 * m (S k) + (if Nat.eqb (S k) n then 0 else m (S (S k))).
Proof.
  intro Hk.
  rewrite (sum_ext n _ (fun j => (if Nat.eqb j k then 4 * m (S k) else 0) + ((if Nat.eqb (S j) k then m k else 0) + (if Nat.eqb j (S k) then m (S (S k)) else 0)))).
  2:{ intros j Hj. unfold band. destruct (Nat.eqb_spec k j), (Nat.eqb_spec j k), (Nat.eqb_spec (S k) j), (Nat.eqb_spec (S j) k), (Nat.eqb_spec j (S k)); cbn [orb]; subst; try lia; try ring. }
  rewrite !sum_plus.
  rewrite (sum_one n (fun j => if Nat.eqb j k then 4 * m (S k) else 0) k Hk).
  2:{ intros j _ Nj. now apply Nat.eqb_neq in Nj as ->. }
  rewrite Nat.eqb_refl.
  assert (A : sum n (fun j => if Nat.eqb (S j) k then m k else 0) = if Nat.eqb k 0 then 0 else m k).
  { destruct k as [|k]; [apply sum_zero; reflexivity|]. rewrite (sum_one n _ k); [now rewrite Nat.eqb_refl|lia|]. intros j _ Nj. cbn. now apply Nat.eqb_neq in Nj as ->. }
  assert (B : sum n (fun j => if Nat.eqb j (S k) then m (S (S k)) else 0) = if Nat.eqb (S k) n then 0 else m (S (S k))).
  { destruct (Nat.eqb_spec (S k) n) as [<- | N].
    - apply sum_zero. intros j Hj. destruct (Nat.eqb_spec j (S k)); [lia|reflexivity].
    - rewrite (sum_one n _ (S k)); [now rewrite Nat.eqb_refl|lia|]. intros j _ Nj. now apply Nat.eqb_neq in Nj as ->. }
  rewrite A, B. ring.
Qed.

(** ** The curvatures *)
Section Curvatures.
  Variables (W : nat -> nat -> R) (y : list R) (min max : R).
  Let n := length y.
  Let h := (max - min) / INR (n - 1).
  Hypothesis Hn : (2 <= n)%nat.
  Hypothesis HW : right_inverse (n - 2) band W.
  Let Y k := nth k y 0.
  Let m k := nth k (mvectors W y min max) 0.

  Lemma mvectors_length : length (mvectors W y min max) = n.
  Proof. unfold mvectors. cbn [length]. rewrite app_length, map_length, seq_length. cbn. unfold n in *. lia. Qed.
  Lemma m_first : m 0%nat = 0.
  Proof. reflexivity. Qed.
  Lemma m_last : m (n - 1)%nat = 0.
  Proof.
    unfold m, mvectors. fold n. replace (n - 1)%nat with (S (n - 2)) by lia. cbn [nth]. rewrite app_nth2; rewrite map_length, seq_length; [|lia]. now rewrite Nat.sub_diag.
  Qed.
  Lemma m_inner i : (i < n - 2)%nat -> m (S i) = sum (n - 2) (fun j => 6 * W i j * (Y (j + 2)%nat - 2 * Y (j + 1)%nat + Y j) / (h * h)).
  Proof.
    intro Hi. unfold m, mvectors. fold n. cbn [nth]. rewrite app_nth1 by (rewrite map_length, seq_length; lia).
    match goal with |- nth i (map ?f _) 0 = _ => set (g := f); rewrite (nth_indep (map g (seq 0 (n - 2))) 0 (g 0%nat)) by (rewrite map_length, seq_length; lia) end.
    rewrite (map_nth g), seq_nth by lia. apply total_sum.
  Qed.
  Lemma m_equation k : (k + 2 < n)%nat -> m k + 4 * m (S k) + m (S (S k)) = 6 * (Y (k + 2)%nat - 2 * Y (k + 1)%nat + Y k) / (h * h).
  Proof.
    intro Hk. transitivity (sum (n - 2) (fun j => band k j * m (S j))).
    { rewrite sum_band by lia. f_equal; [f_equal|].
      - destruct (Nat.eqb_spec k 0) as [-> | _]; reflexivity.
      - destruct (Nat.eqb_spec (S k) (n - 2)) as [E|_]; [|reflexivity]. replace (S (S k)) with (n - 1)%nat by lia. apply m_last. }
    rewrite (sum_ext _ _ (fun j => sum (n - 2) (fun i => (band k j * W j i) * (6 * (Y (i + 2)%nat - 2 * Y (i + 1)%nat + Y i) / (h * h))))).
    2:{ intros j Hj. rewrite (m_inner j Hj), <- sum_scal. apply sum_ext. intros i _. unfold Rdiv. ring. }
    rewrite sum_swap. rewrite (sum_ext _ _ (fun i => delta k i * (6 * (Y (i + 2)%nat - 2 * Y (i + 1)%nat + Y i) / (h * h)))).
    2:{ intros i Hi. rewrite (sum_ext _ _ (fun j => (6 * (Y (i + 2)%nat - 2 * Y (i + 1)%nat + Y i) / (h * h)) * (band k j * W j i))) by (intros; ring).
        rewrite sum_scal, (HW k i) by lia. ring. }
    rewrite (sum_one _ _ k); [unfold delta; rewrite Nat.eqb_refl; ring|lia|]. intros i _ Ni. unfold delta. destruct (Nat.eqb_spec k i); [lia|ring].
  Qed.

  (** ** The pieces *)
  Definition piece (k : nat) : cubic :=
    Cubic (Y k) ((Y (S k) - Y k) / h - (m (S k) + 2 * m k) * h / 6) (m k / 2) ((m (S k) - m k) / (6 * h)).
  Hypothesis Hh : 0 < h.
  Lemma piece_natural : natural n h Y piece.
  Proof.
    split; unfold piece, at_, slope, curvature; cbn [c0 c1 c2 c3].
    - intros k Hk. ring.
    - intros k Hk. replace (k + 1)%nat with (S k) by lia. field. lra.
    - intros k Hk. pose proof (m_equation k Hk) as E. replace (k + 1)%nat with (S k) in * by lia. replace (k + 2)%nat with (S (S k)) in * by lia.
      assert (E' : (m k + 4 * m (S k) + m (S (S k))) * (h * h) = 6 * (Y (S (S k)) - 2 * Y (S k) + Y k)) by (rewrite E; field; lra).
      apply Rmult_eq_reg_r with (6 * h); [|lra].
      transitivity (6 * (Y (S k) - Y k) + (h * h) * (m k + 2 * m (S k))); [field; lra|].
      transitivity (6 * (Y (S (S k)) - Y (S k)) - (h * h) * (m (S (S k)) + 2 * m (S k))); [|field; lra]. lra.
    - intros k Hk. replace (k + 1)%nat with (S k) by lia. field. lra.
    - intros _. rewrite m_first. field. lra.
    - intros _. replace (n - 2)%nat with (n - 2)%nat by lia. replace (S (n - 2)) with (n - 1)%nat by lia. rewrite m_last. field. lra.
  Qed.
End Curvatures.

(** ** Evaluation *)
Lemma spacing_eq n min max : (1 <= n)%nat -> spacing n min max = (max - min) / INR (n - 1).
Proof. intro H. unfold spacing. rewrite minus_INR by lia. reflexivity. Qed.
Lemma spacing_pos n min max : (2 <= n)%nat -> min < max -> 0 < spacing n min max.
Proof. intros Hn H. rewrite spacing_eq by lia. apply Rdiv_lt_0_compat; [lra|]. apply lt_0_INR. lia. Qed.
Lemma spacing_span n min max : (2 <= n)%nat -> (INR n - 1) * spacing n min max = max - min.
Proof. intros Hn. unfold spacing. field. assert (2 <= INR n) by (apply (le_INR 2); lia). lra. Qed.

Section Evaluation.
  Variables (shown : R -> R) (W : nat -> nat -> R) (y : list R) (min max : R).
  Let n := length y.
  Let h := spacing n min max.
  Hypothesis Hn : (2 <= n)%nat.
  Hypothesis Hm : min < max.
  Hypothesis Hs : forall c, In c (constants n min max h) -> shown c = c.
  Let mem := y ++ mvectors W y min max.
  Let Y k := nth k y 0.
  Let m k := nth k (mvectors W y min max) 0.

  Lemma read_y k : (k < n)%nat -> nth_error mem k = Some (Y k).
  Proof. intro H. unfold mem. rewrite nth_error_app1 by exact H. now apply nth_error_nth'. Qed.
  Lemma read_m k : (k < n)%nat -> nth_error mem (n + k) = Some (m k).
  Proof.
    intro H. unfold mem. rewrite nth_error_app2 by (unfold n; lia). fold n. replace (n + k - n)%nat with k by lia. apply nth_error_nth'. rewrite mvectors_length; assumption.
  Qed.
  Lemma mem_length : length mem = (2 * n)%nat.
  Proof. unfold mem. rewrite app_length, mvectors_length by assumption. fold n. lia. Qed.
  Lemma point_some a : exists v, element mem (2 * INR n) a = Some v.
  Proof.
    unfold element. assert (B : 0 <= offset (2 * INR n) a < 2 * INR n).
    { unfold offset. assert (2 <= INR n) by (apply (le_INR 2); lia). destruct (Rle_dec 0 a); [destruct (Rlt_dec a (2 * INR n))|]; lra. }
    destruct (nat_part _ (proj1 B)) as (k & Hk & ->). rewrite Nat2Z.id.
    destruct (nth_error mem k) eqn:E; [eauto|]. apply nth_error_None in E. rewrite mem_length in E. apply le_INR in E. rewrite mult_INR in E. cbn in E. lra.
  Qed.
  Lemma last_point : element mem (2 * INR n) (INR n - 1) = Some (Y (n - 1)%nat).
  Proof.
    rewrite (element_at _ _ _ (n - 1)); [apply read_y; lia| |]; assert (2 <= INR n) by (apply (le_INR 2); lia); [rewrite minus_INR by lia; cbn|]; lra.
  Qed.

  Definition shows c := Hs c.
  Ltac hs := repeat rewrite Hs by (cbn; tauto).

  Lemma eval_outside x : x <= min \/ max <= x -> eval shown mem n min max x = Some (Y (n - 1)%nat).
  Proof.
    intro Hx. unfold eval. fold h. hs. rewrite last_point.
    destruct (point_some (/ h * (x - min))) as [a ->], (point_some (1 + / h * (x - min))) as [b ->], (point_some (INR n + / h * (x - min))) as [c ->], (point_some (INR n + 1 + / h * (x - min))) as [d ->].
    destruct (Rlt_dec min x); [|reflexivity]. destruct (Rlt_dec x max); [|reflexivity]. lra.
  Qed.

  Lemma interval x : min < x < max -> exists k, (k + 1 < n)%nat /\ INR k * h <= x - min < (INR k + 1) * h.
  Proof.
    intro Hx. pose proof (spacing_pos n min max Hn Hm) as Hh. fold h in Hh. pose proof (spacing_span n min max Hn) as Sp. fold h in Sp.
    assert (E : (x - min) / h * h = x - min) by (field; lra).
    destruct (nat_part ((x - min) / h)) as (k & [K1 K2] & _). { apply Rmult_le_pos; [lra|]. left. now apply Rinv_0_lt_compat. }
    assert (L1 : INR k * h <= x - min) by (rewrite <- E; apply Rmult_le_compat_r; lra).
    assert (L2 : x - min < (INR k + 1) * h) by (rewrite <- E at 1; apply Rmult_lt_compat_r; lra).
    exists k. split; [|split; assumption].
    assert (INR k * h < (INR n - 1) * h) by lra. apply Rmult_lt_reg_r in H; [|exact Hh].
    apply INR_lt. rewrite plus_INR. cbn. lra.
  Qed.
  Lemma eval_inside x k : min < x < max -> (k + 1 < n)%nat -> INR k * h <= x - min < (INR k + 1) * h ->
    eval shown mem n min max x = Some (at_ (piece W y min max k) (x - (min + INR k * h))).
  Proof.
    intros Hx Hk [K1 K2]. pose proof (spacing_pos n min max Hn Hm) as Hh. fold h in Hh.
    assert (B : INR k <= / h * (x - min) < INR k + 1).
    { split; [apply Rmult_le_reg_l with h; [lra|]|apply Rmult_lt_reg_l with h; [lra|]]; rewrite <- Rmult_assoc, Rinv_r by lra; lra. }
    pose proof (pos_INR k) as Pk. assert (N : INR k + 2 <= INR n). { change 2 with (INR 2). rewrite <- plus_INR. apply le_INR. lia. }
    unfold eval. fold h. hs. rewrite last_point.
    rewrite (element_at mem (2 * INR n) (/ h * (x - min)) k) by (try split; lra). rewrite (element_at mem (2 * INR n) (1 + / h * (x - min)) (S k)) by (rewrite ?S_INR; try split; lra).
    rewrite (element_at mem (2 * INR n) (INR n + / h * (x - min)) (n + k)) by (rewrite ?plus_INR; try split; lra).
    rewrite (element_at mem (2 * INR n) (INR n + 1 + / h * (x - min)) (n + S k)) by (rewrite ?plus_INR, ?S_INR; try split; lra).
    rewrite !read_y, !read_m by lia. rewrite (fmod_at _ h k Hh) by lra.
    destruct (Rlt_dec min x); [|lra]. destruct (Rlt_dec x max); [|lra]. f_equal.
    unfold at_, piece. cbn [c0 c1 c2 c3]. fold n. rewrite <- (spacing_eq n min max) by lia. fold h.
    change (nth k y 0) with (Y k). change (nth (S k) y 0) with (Y (S k)). change (nth k (mvectors W y min max) 0) with (m k). change (nth (S k) (mvectors W y min max) 0) with (m (S k)).
    field. lra.
  Qed.
End Evaluation.

(** ** Uniqueness *)
Fixpoint minor (k : nat) : R := match k with O => 1 | S j => match j with O => 4 | S i => 4 * minor j - minor i end end.
Lemma minor_SS i : minor (S (S i)) = 4 * minor (S i) - minor i.
Proof. reflexivity. Qed.
Lemma minor_grows k : 0 < minor k < minor (S k).
Proof.
  induction k as [|k [A B]]; [cbn; lra|]. rewrite minor_SS. lra.
Qed.
Lemma chain_solution n (d : nat -> R) : (forall k, (k + 2 <= n)%nat -> d k + 4 * d (S k) + d (S (S k)) = 0) -> d 0%nat = 0 ->
  forall k, (S k <= n)%nat -> d (S k) = sg k * minor k * d 1%nat.
Proof.
  intros H H0. assert (P : forall k, ((S k <= n)%nat -> d (S k) = sg k * minor k * d 1%nat) /\ ((S (S k) <= n)%nat -> d (S (S k)) = sg (S k) * minor (S k) * d 1%nat)).
  { induction k as [|k [I1 I2]].
    - split; [intros _; unfold sg; cbn; ring|]. intro L. pose proof (H 0%nat L) as E. unfold sg. cbn [Nat.even minor]. lra.
    - split; [exact I2|]. intro L. pose proof (H (S k) ltac:(lia)) as E. rewrite I1, I2 in E by lia. rewrite minor_SS, !sg_S in *. lra. }
  intros k L. apply (P k). exact L.
Qed.
Lemma chain_zero n (d : nat -> R) : (1 <= n)%nat -> (forall k, (k + 2 <= n)%nat -> d k + 4 * d (S k) + d (S (S k)) = 0) -> d 0%nat = 0 -> d n = 0 ->
  forall k, (k <= n)%nat -> d k = 0.
Proof.
  intros L H H0 Hn. pose proof (chain_solution n d H H0) as P.
  assert (D1 : d 1%nat = 0).
  { destruct n as [|n]; [lia|]. rewrite (P n) in Hn by lia. apply Rmult_integral in Hn as [E|E]; [|exact E]. exfalso.
    apply Rmult_integral in E as [E|E]; [|pose proof (minor_grows n); lra]. unfold sg in E. destruct (Nat.even n); lra. }
  intros [|k] Hk; [exact H0|]. rewrite (P k Hk), D1. ring.
Qed.
Section Unique.
  Variables (n : nat) (h : R) (y : nat -> R).
  Hypothesis Hn : (2 <= n)%nat.
  Hypothesis Hh : 0 < h.
  Definition curv (p : nat -> cubic) (k : nat) : R := if Nat.ltb (k + 1) n then 2 * c2 (p k) else 0.
  Lemma pieces_of p : natural n h y p -> forall k, (k + 1 < n)%nat ->
    p k = Cubic (y k) ((y (S k) - y k) / h - (curv p (S k) + 2 * curv p k) * h / 6) (curv p k / 2) ((curv p (S k) - curv p k) / (6 * h)).
  Proof.
    intros [LV RV SL CU FE LE] k Hk. specialize (LV k Hk). specialize (RV k Hk). unfold curv. destruct (Nat.ltb_spec (k + 1) n); [|lia].
    assert (C : curvature (p k) h = if Nat.ltb (S k + 1) n then 2 * c2 (p (S k)) else 0).
    { destruct (Nat.ltb_spec (S k + 1) n).
      - rewrite CU by lia. replace (k + 1)%nat with (S k) by lia. unfold curvature. ring.
      - replace k with (n - 2)%nat by lia. apply LE. lia. }
    rewrite <- C. replace (k + 1)%nat with (S k) in RV by lia. rewrite <- RV, <- LV. destruct (p k) as [a b c d]. unfold at_, curvature. cbn [c0 c1 c2 c3].
    f_equal; field; lra.
  Qed.
  Lemma curv_equation p : natural n h y p -> forall k, (k + 2 < n)%nat -> curv p k + 4 * curv p (S k) + curv p (S (S k)) = 6 * (y (S (S k)) - 2 * y (S k) + y k) / (h * h).
  Proof.
    intros N k Hk. pose proof (slopes n h y p N k Hk) as SL. replace (k + 1)%nat with (1 + k)%nat in SL by lia. cbn [plus] in SL.
    rewrite (pieces_of p N k), (pieces_of p N (S k)) in SL by lia. unfold slope in SL. cbn [c0 c1 c2 c3] in SL.
    assert (E : (curv p k + 4 * curv p (1 + k) + curv p (2 + k)) * (h * h) = 6 * (y (2 + k)%nat - 2 * y (1 + k)%nat + y k)).
    { cbn [plus]. apply (f_equal (fun z => z * (6 * h))) in SL.
      match type of SL with ?L = ?R => assert (EL : L = 6 * (y (1 + k)%nat - y k) + (h * h) * (curv p k + 2 * curv p (1 + k))) by (cbn [plus]; field; lra);
        assert (ER : R = 6 * (y (2 + k)%nat - y (1 + k)%nat) - (h * h) * (curv p (2 + k) + 2 * curv p (1 + k))) by (cbn [plus]; field; lra) end.
      rewrite EL, ER in SL. cbn [plus] in SL. lra. }
    cbn [plus] in E. apply Rmult_eq_reg_r with (h * h); [|nra]. rewrite E. field. lra.
  Qed.
  Lemma natural_unique p q : natural n h y p -> natural n h y q -> forall k, (k + 1 < n)%nat -> p k = q k.
  Proof.
    intros P Q. assert (D : forall k, (k <= n - 1)%nat -> curv p k - curv q k = 0).
    { apply (chain_zero (n - 1) (fun k => curv p k - curv q k)); [lia| | |].
      - intros k Hk. pose proof (curv_equation p P k ltac:(lia)). pose proof (curv_equation q Q k ltac:(lia)). lra.
      - unfold curv. destruct (Nat.ltb_spec (0 + 1) n); [|lia]. pose proof (first_end _ _ _ _ P ltac:(lia)) as A. pose proof (first_end _ _ _ _ Q ltac:(lia)) as B.
        unfold curvature in A, B. lra.
      - unfold curv. destruct (Nat.ltb_spec (n - 1 + 1) n); [lia|ring]. }
    intros k Hk. rewrite (pieces_of p P k Hk), (pieces_of q Q k Hk). pose proof (D k ltac:(lia)). pose proof (D (S k) ltac:(lia)).
    replace (curv p k) with (curv q k) by lra. replace (curv p (S k)) with (curv q (S k)) by lra. reflexivity.
  Qed.
End Unique.

(** ** The matrix is invertible *)
Fixpoint th (k : nat) : R := match k with O => 0 | S j => match j with O => 1 | S i => 4 * th j - th i end end.
Lemma th_SS i : th (S (S i)) = 4 * th (S i) - th i.
Proof. reflexivity. Qed.
Lemma th_grows k : 0 <= th k < th (S k).
Proof. induction k as [|k [A B]]; [cbn; lra|]. rewrite th_SS. lra. Qed.
Lemma th_add k m : th (S (S k)) * th (S m) - th (S k) * th m = th (S (S (k + m))).
Proof.
  assert (P : forall m, th (S (S k)) * th (S m) - th (S k) * th m = th (S (S (k + m))) /\ th (S (S k)) * th (S (S m)) - th (S k) * th (S m) = th (S (S (k + S m)))).
  { clear m. induction m as [|m [I1 I2]].
    - rewrite Nat.add_0_r, Nat.add_1_r. rewrite !th_SS. change (th 1) with 1. change (th 0) with 0. split; ring.
    - split; [exact I2|]. rewrite !Nat.add_succ_r in *. rewrite (th_SS (S m)), (th_SS m) in *. rewrite (th_SS (S (S (k + m)))). rewrite <- I1, <- I2. ring. }
  apply P.
Qed.
Definition inv_band (n j k : nat) : R := sg (j + k) * th (S (Nat.min j k)) * th (n - Nat.max j k) / th (S n).
Lemma band_inverse n : right_inverse n band (inv_band n).
Proof.
  intros i k Hi Hk. pose proof (sum_band n i (fun j => inv_band n (j - 1) k) Hi) as E. cbn beta in E.
  rewrite (sum_ext n _ (fun j => band i j * inv_band n (S j - 1) k)) by (intros j _; do 2 f_equal; lia). rewrite E. clear E.
  replace (S i - 1)%nat with i by lia. replace (S (S i) - 1)%nat with (S i) by lia.
  pose proof (th_grows n) as P. set (c := / th (S n)). assert (Pc : th (S n) * c = 1) by (unfold c; field; lra).
  assert (A : (if Nat.eqb i 0 then 0 else inv_band n (i - 1) k) = - sg (i + k) * th (Nat.min i (S k)) * th (n - Nat.max (i - 1) k) * c).
  { destruct i as [|i]; cbn [Nat.eqb]; [cbn [Nat.min th]; ring|]. unfold inv_band, Rdiv. fold c. replace (S i - 1)%nat with i by lia. cbn [plus]. rewrite sg_S.
    replace (S (Nat.min i k)) with (Nat.min (S i) (S k)) by lia. ring. }
  assert (B : (if Nat.eqb (S i) n then 0 else inv_band n (S i) k) = - sg (i + k) * th (S (Nat.min (S i) k)) * th (n - Nat.max (S i) k) * c).
  { destruct (Nat.eqb_spec (S i) n) as [<- | N].
    - replace (S i - Nat.max (S i) k)%nat with 0%nat by lia. cbn [th]. ring.
    - unfold inv_band, Rdiv. fold c. cbn [plus]. rewrite sg_S. ring. }
  rewrite A, B. unfold inv_band, Rdiv. fold c. clear A B. unfold delta. destruct (Nat.eqb_spec i k) as [-> | N].
  - rewrite Nat.min_id, Nat.max_id. replace (Nat.min k (S k)) with k by lia. replace (Nat.max (k - 1) k) with k by lia. replace (Nat.min (S k) k) with k by lia. replace (Nat.max (S k) k) with (S k) by lia.
    assert (G : sg (k + k) = 1). { unfold sg. replace (k + k)%nat with (2 * k)%nat by lia. rewrite Nat.even_mul. reflexivity. }
    rewrite G. destruct n as [|n]; [lia|]. pose proof (th_add k (n - k)) as T. replace (S n - k)%nat with (S (n - k)) by lia. replace (S n - S k)%nat with (n - k)%nat by lia.
    replace (k + (n - k))%nat with n in T by lia. etransitivity; [|exact Pc]. rewrite <- T. rewrite (th_SS k). ring.
  - destruct (Nat.lt_ge_cases i k) as [L|L].
    + rewrite (Nat.min_l i k), (Nat.max_r i k), (Nat.min_l i (S k)), (Nat.max_r (i - 1) k), (Nat.min_l (S i) k), (Nat.max_r (S i) k) by lia. rewrite th_SS. ring.
    + rewrite (Nat.min_r i k), (Nat.max_l i k), (Nat.min_r i (S k)), (Nat.max_l (i - 1) k), (Nat.min_r (S i) k), (Nat.max_l (S i) k) by lia.
      replace (n - (i - 1))%nat with (S (S (n - S i))) by lia. replace (n - i)%nat with (S (n - S i)) by lia. rewrite th_SS. ring.
Qed.

(** ** Smoothness *)
Lemma glue_derivative f g k x l d : 0 < d -> (forall t, x - d < t <= x -> f t = g t) -> (forall t, x <= t < x + d -> f t = k t) ->
  derivable_pt_lim g x l -> derivable_pt_lim k x l -> derivable_pt_lim f x l.
Proof.
  intros Hd L R Dg Dk eps He. destruct (Dg eps He) as [d1 D1], (Dk eps He) as [d2 D2].
  assert (P : 0 < Rmin d (Rmin d1 d2)). { repeat apply Rmin_pos; [exact Hd|apply (cond_pos d1)|apply (cond_pos d2)]. }
  exists (mkposreal _ P). cbn. intros t Nt Ht.
  assert (Rabs t < d /\ Rabs t < d1 /\ Rabs t < d2) as (T0 & T1 & T2).
  { pose proof (Rmin_l d (Rmin d1 d2)). pose proof (Rmin_r d (Rmin d1 d2)). pose proof (Rmin_l d1 d2). pose proof (Rmin_r d1 d2). repeat split; lra. }
  apply Rabs_def2 in T0. destruct (Rle_dec t 0).
  - rewrite (L (x + t)), (L x) by lra. now apply D1.
  - rewrite (R (x + t)), (R x) by lra. now apply D2.
Qed.
Lemma glue_continuity f g k x d : 0 < d -> (forall t, x - d < t <= x -> f t = g t) -> (forall t, x <= t < x + d -> f t = k t) ->
  continuity_pt g x -> continuity_pt k x -> continuity_pt f x.
Proof.
  intros Hd L R Dg Dk eps He. destruct (Dg eps He) as (d1 & P1 & D1), (Dk eps He) as (d2 & P2 & D2).
  exists (Rmin d (Rmin d1 d2)). split; [repeat apply Rmin_pos; lra|]. intros t [Ht1 Ht2]. cbn in *. unfold R_dist in *.
  assert (Rabs (t - x) < d /\ Rabs (t - x) < d1 /\ Rabs (t - x) < d2) as (T0 & T1 & T2).
  { pose proof (Rmin_l d (Rmin d1 d2)). pose proof (Rmin_r d (Rmin d1 d2)). pose proof (Rmin_l d1 d2). pose proof (Rmin_r d1 d2). repeat split; lra. }
  apply Rabs_def2 in T0. destruct (Rle_dec t x).
  - rewrite (L t), (L x) by lra. apply D1. split; assumption.
  - rewrite (R t), (R x) by lra. apply D2. split; assumption.
Qed.

Section Smooth.
  Variables (n : nat) (min max h : R).
  Hypothesis Hn : (2 <= n)%nat.
  Hypothesis Hh : 0 < h.
  Hypothesis Hspan : (INR n - 1) * h = max - min.
  Definition index (x : R) : nat := Z.to_nat (trunc ((x - min) / h)).
  Definition knot (k : nat) : R := min + INR k * h.
  Definition pw (q : nat -> R -> R) (x : R) : R := q (index x) (x - knot (index x)).
  Lemma index_at x k : knot k <= x < knot (S k) -> index x = k.
  Proof.
    unfold knot. rewrite S_INR. intro H. unfold index. rewrite (trunc_unique _ (Z.of_nat k)); [apply Nat2Z.id| |]; rewrite <- ?INR_IZR_INZ.
    - apply Rmult_le_pos; [pose proof (pos_INR k); nra|]. left. now apply Rinv_0_lt_compat.
    - split; [apply Rmult_le_reg_r with h; [lra|]|apply Rmult_lt_reg_r with h; [lra|]]; unfold Rdiv; rewrite Rmult_assoc, Rinv_l by lra; lra.
  Qed.
  Lemma index_exists x : min < x < max -> exists k, (k + 1 < n)%nat /\ knot k <= x < knot (S k).
  Proof.
    intro Hx. assert (E : (x - min) / h * h = x - min) by (field; lra).
    destruct (nat_part ((x - min) / h)) as (k & [K1 K2] & _). { apply Rmult_le_pos; [lra|]. left. now apply Rinv_0_lt_compat. }
    assert (L1 : INR k * h <= x - min) by (rewrite <- E; apply Rmult_le_compat_r; lra).
    assert (L2 : x - min < (INR k + 1) * h) by (rewrite <- E at 1; apply Rmult_lt_compat_r; lra).
    exists k. unfold knot. rewrite S_INR. split; [|lra].
    assert (INR k * h < (INR n - 1) * h) by lra. apply Rmult_lt_reg_r in H; [|exact Hh].
    apply INR_lt. rewrite plus_INR. cbn. lra.
  Qed.
  Lemma pw_at q x k : knot k <= x < knot (S k) -> pw q x = q k (x - knot k).
  Proof. intro H. unfold pw. now rewrite (index_at x k H). Qed.
  Definition meets (q : nat -> R -> R) : Prop := forall k, (k + 2 < n)%nat -> q k h = q (S k) 0.
  Lemma pw_left q x k : (k + 1 < n)%nat -> meets q -> x < max -> knot k <= x <= knot (S k) -> pw q x = q k (x - knot k).
  Proof.
    intros Hk M Hx [L R]. destruct (Rle_lt_or_eq_dec _ _ R) as [R'|E]; [now apply pw_at|].
    assert (K : (k + 2 < n)%nat).
    { apply INR_lt. rewrite plus_INR. cbn [INR]. apply Rmult_lt_reg_r with h; [exact Hh|]. rewrite E in Hx. unfold knot in Hx. rewrite S_INR in Hx. lra. }
    rewrite (pw_at q x (S k)).
    - rewrite E, Rminus_diag_eq, <- (M k K) by reflexivity. f_equal. unfold knot. rewrite S_INR. ring.
    - rewrite E. unfold knot. rewrite !S_INR. lra.
  Qed.
  (** around every point the function is one piece on the left and one on the right *)
  Lemma around x : min < x < max -> exists i j d, 0 < d /\ (i + 1 < n)%nat /\ (j + 1 < n)%nat /\ (i = j \/ j = S i /\ x = knot j) /\ knot j <= x < knot (S j) /\
    forall q, meets q -> (forall t, x - d < t <= x -> pw q t = q i (t - knot i)) /\ (forall t, x <= t < x + d -> pw q t = q j (t - knot j)).
  Proof.
    intro Hx. destruct (index_exists x Hx) as (k & Hk & L & R). destruct (Rle_lt_or_eq_dec _ _ L) as [L'|E].
    - exists k, k, (Rmin (x - knot k) (knot (S k) - x)). split; [apply Rmin_pos; lra|]. do 4 (split; [auto|]).
      pose proof (Rmin_l (x - knot k) (knot (S k) - x)). pose proof (Rmin_r (x - knot k) (knot (S k) - x)).
      intros q _. split; intros t Ht; apply pw_at; lra.
    - destruct k as [|k]; [unfold knot in E; cbn in E; lra|]. assert (D : knot (S k) = knot k + h) by (unfold knot; rewrite S_INR; ring).
      exists k, (S k), (Rmin h (knot (S (S k)) - x)). split; [apply Rmin_pos; lra|]. split; [lia|]. split; [lia|]. split; [auto|]. split; [auto|].
      pose proof (Rmin_l h (knot (S (S k)) - x)). pose proof (Rmin_r h (knot (S (S k)) - x)).
      intros q M. split; intros t Ht; [apply pw_left; auto; try lia; lra|apply pw_at; lra].
  Qed.
  Lemma shift_derivative f u x l : derivable_pt_lim f (x - u) l -> derivable_pt_lim (fun t => f (t - u)) x l.
  Proof.
    intros H eps He. destruct (H eps He) as [d D]. exists d. intros t Nt Ht. replace (x + t - u) with (x - u + t) by ring. now apply D.
  Qed.
  Lemma shift_continuity f u x : continuity_pt f (x - u) -> continuity_pt (fun t => f (t - u)) x.
  Proof.
    intros H eps He. destruct (H eps He) as (d & P & D). exists d. split; [exact P|]. intros t [[_ Nt] Ht]. cbn in *. unfold R_dist in *. apply D. split.
    - split; [exact I|]. lra.
    - replace (t - u - (x - u)) with (t - x) by ring. exact Ht.
  Qed.
  Lemma pw_derivative q q' x : meets q -> meets q' -> (forall k u, (k + 1 < n)%nat -> derivable_pt_lim (q k) u (q' k u)) -> min < x < max -> derivable_pt_lim (pw q) x (pw q' x).
  Proof.
    intros M M' D Hx. destruct (around x Hx) as (i & j & d & Hd & Hi & Hj & IJ & Kj & A). destruct (A q M) as [L R]. rewrite (pw_at q' x j Kj).
    apply (glue_derivative (pw q) (fun t => q i (t - knot i)) (fun t => q j (t - knot j)) x _ d Hd L R); apply shift_derivative.
    - destruct IJ as [-> | [-> ->]]; [now apply D|]. replace (q' (S i) (knot (S i) - knot (S i))) with (q' i (knot (S i) - knot i)); [now apply D|].
      replace (knot (S i) - knot i) with h by (unfold knot; rewrite S_INR; ring). rewrite Rminus_diag_eq by reflexivity. apply M'. lia.
    - now apply D.
  Qed.
  Lemma pw_continuity q x : meets q -> (forall k u, (k + 1 < n)%nat -> continuity_pt (q k) u) -> min < x < max -> continuity_pt (pw q) x.
  Proof.
    intros M D Hx. destruct (around x Hx) as (i & j & d & Hd & Hi & Hj & IJ & Kj & A). destruct (A q M) as [L R].
    apply (glue_continuity (pw q) (fun t => q i (t - knot i)) (fun t => q j (t - knot j)) x d Hd L R); apply shift_continuity; now apply D.
  Qed.

  Lemma at_derivative p u : derivable_pt_lim (at_ p) u (slope p u).
  Proof.
    unfold at_, slope. destruct p as [a b c d]. cbn [c0 c1 c2 c3].
    replace (b + 2 * c * u + 3 * d * u ^ 2) with (0 + b * 1 + c * (INR 2 * u ^ 1) + d * (INR 3 * u ^ 2)) by (cbn [INR]; ring).
    apply (derivable_pt_lim_plus (fun u => a + b * u + c * u ^ 2) (fun u => d * u ^ 3)); [apply (derivable_pt_lim_plus (fun u => a + b * u) (fun u => c * u ^ 2)); [apply (derivable_pt_lim_plus (fun _ => a) (fun u => b * u))|]|].
    - apply derivable_pt_lim_const.
    - apply (derivable_pt_lim_scal id b u 1). apply derivable_pt_lim_id.
    - apply (derivable_pt_lim_scal (fun u => u ^ 2) c u). apply (derivable_pt_lim_pow u 2).
    - apply (derivable_pt_lim_scal (fun u => u ^ 3) d u). apply (derivable_pt_lim_pow u 3).
  Qed.
  Lemma slope_derivative p u : derivable_pt_lim (slope p) u (curvature p u).
  Proof.
    unfold slope, curvature. destruct p as [a b c d]. cbn [c0 c1 c2 c3].
    replace (2 * c + 6 * d * u) with (0 + (2 * c) * 1 + (3 * d) * (INR 2 * u ^ 1)) by (cbn [INR]; ring).
    apply (derivable_pt_lim_plus (fun u => b + 2 * c * u) (fun u => 3 * d * u ^ 2)); [apply (derivable_pt_lim_plus (fun _ => b) (fun u => 2 * c * u))|].
    - apply derivable_pt_lim_const.
    - apply (derivable_pt_lim_scal id (2 * c) u 1). apply derivable_pt_lim_id.
    - apply (derivable_pt_lim_scal (fun u => u ^ 2) (3 * d) u). apply (derivable_pt_lim_pow u 2).
  Qed.
  Lemma curvature_continuity p u : continuity_pt (curvature p) u.
  Proof.
    apply derivable_continuous_pt. exists (0 + 6 * c3 p * 1). unfold curvature. destruct p as [a b c d]. cbn [c0 c1 c2 c3]. unfold derivable_pt_abs.
    apply (derivable_pt_lim_plus (fun _ => 2 * c) (fun u => 6 * d * u)); [apply derivable_pt_lim_const|].
    apply (derivable_pt_lim_scal id (6 * d) u 1). apply derivable_pt_lim_id.
  Qed.

  Lemma small c eps : 0 < eps -> exists d, 0 < d /\ forall u, Rabs u < d -> Rabs (c * u) < eps.
  Proof.
    intro He. pose proof (Rabs_pos c) as Pc. exists (eps / (Rabs c + 1)). split; [apply Rdiv_lt_0_compat; lra|]. intros u Hu. rewrite Rabs_mult.
    apply Rle_lt_trans with ((Rabs c + 1) * Rabs u); [pose proof (Rabs_pos u); nra|]. apply (Rmult_lt_compat_l (Rabs c + 1)) in Hu; [|lra]. replace eps with ((Rabs c + 1) * (eps / (Rabs c + 1))) by (field; lra). exact Hu.
  Qed.
  Lemma natural_smooth y p f : natural n h y p -> (forall k x, min < x < max -> (k + 1 < n)%nat -> knot k <= x < knot (S k) -> f x = at_ (p k) (x - knot k)) -> smooth f min max.
  Proof.
    intros N F.
    assert (M0 : meets (fun k => at_ (p k))). { intros k Hk. cbn beta. rewrite (right_value _ _ _ _ N k), (left_value _ _ _ _ N (S k)) by lia. f_equal. lia. }
    assert (M1 : meets (fun k => slope (p k))). { intros k Hk. cbn beta. rewrite (slopes _ _ _ _ N k) by lia. do 2 f_equal. lia. }
    assert (M2 : meets (fun k => curvature (p k))). { intros k Hk. cbn beta. rewrite (curvatures _ _ _ _ N k) by lia. do 2 f_equal. lia. }
    exists (pw (fun k => slope (p k))), (pw (fun k => curvature (p k))). split; [|split].
    - intros x Hx. split; [|split].
      + apply (glue_derivative f (pw (fun k => at_ (p k))) (pw (fun k => at_ (p k))) x _ (Rmin (x - min) (max - x))).
        * apply Rmin_pos; lra.
        * intros t Ht. pose proof (Rmin_l (x - min) (max - x)). destruct (index_exists t ltac:(lra)) as (k & Hk & K). rewrite (F k t) by (auto; lra). now rewrite (pw_at _ t k K).
        * intros t Ht. pose proof (Rmin_r (x - min) (max - x)). destruct (index_exists t ltac:(lra)) as (k & Hk & K). rewrite (F k t) by (auto; lra). now rewrite (pw_at _ t k K).
        * apply (pw_derivative (fun k => at_ (p k)) (fun k => slope (p k))); auto. intros; apply at_derivative.
        * apply (pw_derivative (fun k => at_ (p k)) (fun k => slope (p k))); auto. intros; apply at_derivative.
      + apply (pw_derivative (fun k => slope (p k)) (fun k => curvature (p k))); auto. intros; apply slope_derivative.
      + apply pw_continuity; auto. intros; apply curvature_continuity.
    - intros eps He. destruct (small (6 * c3 (p 0%nat)) eps He) as (d & Hd & Sm). exists (Rmin d h). split; [apply Rmin_pos; lra|]. intros x Hx Dx.
      pose proof (Rmin_l d h). pose proof (Rmin_r d h). rewrite (pw_at _ x 0%nat).
      2:{ unfold knot. rewrite S_INR. cbn [INR]. apply Rabs_def2 in Dx. lra. }
      pose proof (first_end _ _ _ _ N ltac:(lia)) as E. unfold curvature in *. replace (2 * c2 (p 0%nat) + 6 * c3 (p 0%nat) * (x - knot 0) - 0) with (6 * c3 (p 0%nat) * (x - knot 0)) by lra.
      apply Sm. unfold knot. cbn [INR]. replace (x - (min + 0 * h)) with (x - min) by ring. lra.
    - intros eps He. destruct (small (6 * c3 (p (n - 2)%nat)) eps He) as (d & Hd & Sm). exists (Rmin d h). split; [apply Rmin_pos; lra|]. intros x Hx Dx.
      pose proof (Rmin_l d h). pose proof (Rmin_r d h).
      assert (K1 : knot (S (n - 2)) = max). { unfold knot. replace (S (n - 2)) with (n - 1)%nat by lia. rewrite minus_INR by lia. cbn [INR]. lra. }
      assert (K0 : knot (n - 2) = max - h). { rewrite <- K1. unfold knot. rewrite S_INR. ring. }
      rewrite (pw_at _ x (n - 2)%nat) by (rewrite K0, K1; apply Rabs_def2 in Dx; lra).
      pose proof (last_end _ _ _ _ N ltac:(lia)) as E. unfold curvature in *. replace (2 * c2 (p (n - 2)%nat) + 6 * c3 (p (n - 2)%nat) * (x - knot (n - 2)) - 0) with (6 * c3 (p (n - 2)%nat) * (x - max)).
      + apply Sm. lra.
      + rewrite K0. nra.
  Qed.
End Smooth.
