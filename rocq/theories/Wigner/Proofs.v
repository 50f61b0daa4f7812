From Verif.Wigner Require Import Model Spec Sums.
From Coq Require Import QArith Qreals Reals Lra List ZArith Lia Factorial.
Import ListNotations.
Local Open Scope R_scope.

(** ** From the rational numbers of the code to the real sums *)
Lemma factn_fact n : IZR (factn n) = INR (fact n).
Proof. induction n as [|n IH]; [reflexivity|]. cbn [factn]. rewrite mult_IZR, IH, fact_simpl, mult_INR, (INR_IZR_INZ (S n)). ring. Qed.
Lemma fact2_F t : IZR (fact2 t) = F (t / 2).
Proof. apply factn_fact. Qed.
Lemma Q2R_Z z : Q2R (inject_Z z) = IZR z.
Proof. unfold Q2R, inject_Z. cbn. field. Qed.
Lemma Qnz z : IZR z <> 0 -> ~ (inject_Z z == 0)%Q.
Proof. intros H E. apply H. apply Qeq_eqR in E. rewrite Q2R_Z in E. rewrite E. unfold Q2R. cbn. field. Qed.
Lemma half_lt t : (t <? 0)%Z = (t / 2 <? 0)%Z.
Proof. destruct (Z.ltb_spec t 0), (Z.ltb_spec (t / 2) 0); try reflexivity; pose proof (Z.div_mod t 2); pose proof (Z.mod_pos_bound t 2); lia. Qed.
Lemma half_sub t v : ((t - 2 * v) / 2 = t / 2 - v)%Z.
Proof. replace (t - 2 * v)%Z with (t + (- v) * 2)%Z by ring. rewrite Z.div_add by lia. ring. Qed.
Lemma half_add t v : ((t + 2 * v) / 2 = t / 2 + v)%Z.
Proof. replace (t + 2 * v)%Z with (t + v * 2)%Z by ring. now rewrite Z.div_add by lia. Qed.

Definition nn j1 j2 J := ((j1 + j2 - J) / 2)%Z.
Lemma term_T j1 m1 j2 m2 J i : Q2R (term j1 m1 j2 m2 J i) = T (nn j1 j2 J) ((j1 - m1) / 2) ((j2 + m2) / 2) ((J - j2 + m1) / 2) ((J - j1 - m2) / 2) i.
Proof.
  unfold term, T. cbn zeta. set (v := Z.of_nat i).
  rewrite (half_lt (j1 + j2 - J - 2 * v)), (half_lt (j1 - m1 - 2 * v)), (half_lt (j2 + m2 - 2 * v)), (half_lt (J - j2 + m1 + 2 * v)), (half_lt (J - j1 - m2 + 2 * v)), !half_sub, !half_add. fold (nn j1 j2 J).
  destruct (Z.ltb_spec (nn j1 j2 J - v) 0); [rewrite (rf_neg (nn j1 j2 J - v)) by assumption; cbn [orb]; rewrite RMicromega.Q2R_0; ring|].
  destruct (Z.ltb_spec ((j1 - m1) / 2 - v) 0); [rewrite (rf_neg ((j1 - m1) / 2 - v)) by assumption; cbn [orb]; rewrite RMicromega.Q2R_0; ring|].
  destruct (Z.ltb_spec ((j2 + m2) / 2 - v) 0); [rewrite (rf_neg ((j2 + m2) / 2 - v)) by assumption; cbn [orb]; rewrite RMicromega.Q2R_0; ring|].
  destruct (Z.ltb_spec ((J - j2 + m1) / 2 + v) 0); [rewrite (rf_neg ((J - j2 + m1) / 2 + v)) by assumption; cbn [orb]; rewrite RMicromega.Q2R_0; ring|].
  destruct (Z.ltb_spec ((J - j1 - m2) / 2 + v) 0); [rewrite (rf_neg ((J - j1 - m2) / 2 + v)) by assumption; cbn [orb]; rewrite RMicromega.Q2R_0; ring|]. cbn [orb].
  rewrite !rf_pos by (assumption || unfold v; lia).
  assert (Fv : IZR (factn i) = F v) by (rewrite factn_fact; unfold F, v; now rewrite Nat2Z.id).
  assert (P : IZR (factn i * fact2 (j1 + j2 - J - 2 * v) * fact2 (j1 - m1 - 2 * v) * fact2 (j2 + m2 - 2 * v) * fact2 (J - j2 + m1 + 2 * v) * fact2 (J - j1 - m2 + 2 * v)) =
     F v * F (nn j1 j2 J - v) * F ((j1 - m1) / 2 - v) * F ((j2 + m2) / 2 - v) * F ((J - j2 + m1) / 2 + v) * F ((J - j1 - m2) / 2 + v)) by (rewrite !mult_IZR, !fact2_F, !half_sub, !half_add, Fv; reflexivity).
  rewrite Q2R_div; [|apply Qnz; rewrite P; repeat apply Rmult_integral_contrapositive_currified; apply F_neq]. rewrite !Q2R_Z, P.
  replace (IZR (sgn i)) with (sg i) by (unfold sg, sgn; destruct (Nat.even i); reflexivity). field. repeat split; apply F_neq.
Qed.
Lemma total_SS j1 m1 j2 m2 J : Q2R (total j1 m1 j2 m2 J) = SS (nn j1 j2 J) ((j1 - m1) / 2) ((j2 + m2) / 2) ((J - j2 + m1) / 2) ((J - j1 - m2) / 2).
Proof.
  assert (G : forall f : nat -> Q, forall k, Q2R (fold_left (fun s nu => s + f nu)%Q (seq 0 (S k)) 0%Q) = sig k (fun i => Q2R (f i))).
  { intros f. induction k as [|k IH]; [cbn; rewrite Q2R_plus, RMicromega.Q2R_0; ring|]. rewrite seq_S, fold_left_app. cbn [fold_left]. rewrite Q2R_plus, IH. reflexivity. }
  unfold total, Verif.Wigner.Model.last. destruct (Z.ltb_spec (j1 + j2 - J) 0) as [L | L].
  - assert (nn j1 j2 J < 0)%Z by (unfold nn; pose proof (half_lt (j1 + j2 - J)) as Q; destruct (Z.ltb_spec (j1 + j2 - J) 0); [|lia]; symmetry in Q; now apply Z.ltb_lt in Q).
    cbn [seq fold_left]. rewrite RMicromega.Q2R_0. symmetry. apply SS_zero. lia.
  - rewrite G. fold (nn j1 j2 J). apply sig_ext. intros i _. apply term_T.
Qed.

Definition nrm (j1 m1 j2 m2 J M : Z) : R :=
  IZR (J + 1) * (F ((J + j1 - j2) / 2) * F ((J - j1 + j2) / 2) * F ((j1 + j2 - J) / 2)) *
  (F ((j1 + m1) / 2) * F ((j1 - m1) / 2) * (F ((j2 + m2) / 2) * F ((j2 - m2) / 2)) * (F ((J + M) / 2) * F ((J - M) / 2))) / F ((J + j1 + j2 + 2) / 2).
Lemma norm_nrm j1 m1 j2 m2 J M : Q2R (norm j1 m1 j2 m2 J M) = nrm j1 m1 j2 m2 J M.
Proof.
  unfold norm, nrm. rewrite Q2R_div by (apply Qnz; rewrite fact2_F; apply F_neq). rewrite !Q2R_Z, !mult_IZR, !fact2_F. unfold Rdiv. ring.
Qed.
Lemma nrm_nonneg j1 m1 j2 m2 J M : (0 <= J + 1)%Z -> 0 <= nrm j1 m1 j2 m2 J M.
Proof.
  intro H. unfold nrm. assert (0 <= IZR (J + 1)) by (apply IZR_le; lia). unfold Rdiv. repeat apply Rmult_le_pos; try (left; apply F_pos); auto. left. apply Rinv_0_lt_compat, F_pos.
Qed.
Definition cg (j1 m1 j2 m2 J M : Z) : R :=
  sqrt (nrm j1 m1 j2 m2 J M) * SS (nn j1 j2 J) ((j1 - m1) / 2) ((j2 + m2) / 2) ((J - j2 + m1) / 2) ((J - j1 - m2) / 2).
Lemma CG_cg j1 m1 j2 m2 J M : (0 <= J)%Z -> CG j1 m1 j2 m2 J M = Some (if (m1 + m2 =? M)%Z then cg j1 m1 j2 m2 J M else 0).
Proof.
  intro H. unfold CG. destruct (Z.eqb_spec (m1 + m2) M); cbn [negb]; [|reflexivity].
  destruct (Qlt_le_dec (norm j1 m1 j2 m2 J M) 0) as [L | L].
  - exfalso. apply Qlt_Rlt in L. rewrite norm_nrm, RMicromega.Q2R_0 in L. pose proof (nrm_nonneg j1 m1 j2 m2 J M). lra || (assert (0 <= nrm j1 m1 j2 m2 J M) by (apply nrm_nonneg; lia); lra).
  - unfold cg. rewrite norm_nrm, total_SS. reflexivity.
Qed.

(** ** Selection rules *)
Lemma selection j1 m1 j2 m2 J M : (0 <= J)%Z -> ~ allowed j1 m1 j2 m2 J M -> CG j1 m1 j2 m2 J M = Some 0.
Proof.
  intros HJ N. rewrite CG_cg by exact HJ. f_equal. destruct (Z.eqb_spec (m1 + m2) M) as [E | E]; [|reflexivity]. unfold cg.
  rewrite <- total_SS. enough (Q2R (total j1 m1 j2 m2 J) = 0) as -> by ring. unfold total.
  assert (G : forall l s, (forall i, In i l -> term j1 m1 j2 m2 J i = 0%Q) -> (s == 0)%Q -> (fold_left (fun s nu => s + term j1 m1 j2 m2 J nu) l s == 0)%Q).
  { induction l as [|i l IH]; intros s Hl Hs; [exact Hs|]. cbn [fold_left]. apply IH; [intros; apply Hl; now right|]. rewrite Hl by (now left). rewrite Hs. reflexivity. }
  rewrite (Qeq_eqR _ 0%Q); [apply RMicromega.Q2R_0|]. apply G; [|reflexivity]. intros i I. apply in_seq in I. unfold term. cbn zeta.
  match goal with |- (if ?c then _ else _) = _ => enough (c = true) as -> by reflexivity end.
  destruct (((j1 + j2 - J - 2 * Z.of_nat i <? 0) || (j1 - m1 - 2 * Z.of_nat i <? 0) || (j2 + m2 - 2 * Z.of_nat i <? 0) || (J - j2 + m1 + 2 * Z.of_nat i <? 0) || (J - j1 - m2 + 2 * Z.of_nat i <? 0))%Z) eqn:C; [reflexivity|].
  exfalso. apply N. repeat rewrite Bool.orb_false_iff in C. destruct C as ((((C1 & C2) & C3) & C4) & C5). apply Z.ltb_ge in C1, C2, C3, C4, C5. unfold allowed. lia.
Qed.

(** ** Symmetries *)
Lemma even_half t : Z.even t = true -> (t = 2 * (t / 2))%Z.
Proof. intro H. apply Zeven_bool_iff in H. apply Zeven_ex in H as (k & ->). rewrite Z.mul_comm, Z.div_mul by lia. ring. Qed.
Lemma even_nat n : Z.even (Z.of_nat n) = Nat.even n.
Proof. induction n as [|n IH]; [reflexivity|]. rewrite Nat2Z.inj_succ, Z.even_succ, Nat.even_succ, <- Z.negb_even, <- Nat.negb_even. now rewrite IH. Qed.
Lemma phase_sg t : (0 <= t)%Z -> phase t = sg (Z.to_nat (t / 2)).
Proof. intro H. unfold phase, sg. rewrite <- even_nat, Z2Nat.id by (apply Z.div_pos; lia). reflexivity. Qed.
Lemma half_shift t u : Z.even u = true -> ((t + u) / 2 = t / 2 + u / 2)%Z.
Proof. intro H. rewrite (even_half u H) at 1. apply half_add. Qed.
Lemma SS_neg n a b c d : (n < 0)%Z -> SS n a b c d = 0.
Proof. intro H. apply SS_zero. lia. Qed.
Lemma phase_sq t : phase t * phase t = 1.
Proof. unfold phase. destruct (Z.even (t / 2)); ring. Qed.

(** Reversal of the sum, in the doubled variables. *)
Lemma SS_reverse j1 m1 j2 m2 J : Z.even (j1 + j2 - J) = true ->
  SS (nn j1 j2 J) ((j1 - m1) / 2) ((j2 + m2) / 2) ((J - j2 + m1) / 2) ((J - j1 - m2) / 2) =
  phase (j1 + j2 - J) * SS (nn j1 j2 J) ((j1 + m1) / 2) ((j2 - m2) / 2) ((J - j2 - m1) / 2) ((J - j1 + m2) / 2).
Proof.
  intro E. destruct (Z_lt_dec (j1 + j2 - J) 0) as [L | L].
  - assert (nn j1 j2 J < 0)%Z by (unfold nn; apply Z.ltb_lt; rewrite <- half_lt; now apply Z.ltb_lt). rewrite !SS_neg by assumption. ring.
  - assert (0 <= nn j1 j2 J)%Z by (unfold nn; apply Z.div_pos; lia). rewrite SS_rev by assumption. rewrite phase_sg by lia. f_equal. unfold nn in *.
    rewrite <- !(half_shift _ (j1 + j2 - J) E). f_equal.
    + f_equal. lia.
    + f_equal. lia.
    + replace (J - j2 - m1)%Z with ((j1 - m1) - (j1 + j2 - J))%Z by lia. rewrite (even_half _ E) at 2. now rewrite half_sub.
    + replace (J - j1 + m2)%Z with ((j2 + m2) - (j1 + j2 - J))%Z by lia. rewrite (even_half _ E) at 2. now rewrite half_sub.
Qed.
Lemma exchange j1 m1 j2 m2 J M : (0 <= J)%Z -> Z.even (j1 + j2 - J) = true ->
  value (CG j2 m2 j1 m1 J M) = phase (j1 + j2 - J) * value (CG j1 m1 j2 m2 J M).
Proof.
  intros HJ E. rewrite !CG_cg by exact HJ. cbn [value]. replace (m2 + m1)%Z with (m1 + m2)%Z by lia. destruct (Z.eqb_spec (m1 + m2) M); [|ring]. unfold cg.
  assert (Nr : nrm j2 m2 j1 m1 J M = nrm j1 m1 j2 m2 J M) by (unfold nrm; replace (J + j2 - j1)%Z with (J - j1 + j2)%Z by lia; replace (J - j2 + j1)%Z with (J + j1 - j2)%Z by lia; replace (j2 + j1 - J)%Z with (j1 + j2 - J)%Z by lia; replace (J + j2 + j1 + 2)%Z with (J + j1 + j2 + 2)%Z by lia; unfold Rdiv; ring).
  rewrite Nr. rewrite (SS_reverse j1 m1 j2 m2 J E). replace (nn j2 j1 J) with (nn j1 j2 J) by (unfold nn; f_equal; lia).
  rewrite SS_swap_ab, SS_swap_cd. assert (P : phase (j1 + j2 - J) * phase (j1 + j2 - J) = 1) by apply phase_sq.
  transitivity ((phase (j1 + j2 - J) * phase (j1 + j2 - J)) * (sqrt (nrm j1 m1 j2 m2 J M) * SS (nn j1 j2 J) ((j1 + m1) / 2) ((j2 - m2) / 2) ((J - j2 - m1) / 2) ((J - j1 + m2) / 2))); [rewrite P; ring|ring].
Qed.
Lemma reflection j1 m1 j2 m2 J M : (0 <= J)%Z -> Z.even (j1 + j2 - J) = true ->
  value (CG j1 (- m1) j2 (- m2) J (- M)) = phase (j1 + j2 - J) * value (CG j1 m1 j2 m2 J M).
Proof.
  intros HJ E. rewrite !CG_cg by exact HJ. cbn [value]. destruct (Z.eqb_spec (m1 + m2) M), (Z.eqb_spec (- m1 + - m2) (- M)); try lia; [|ring]. unfold cg.
  assert (Nr : nrm j1 (- m1) j2 (- m2) J (- M) = nrm j1 m1 j2 m2 J M) by (unfold nrm, Z.sub; rewrite !Z.opp_involutive; unfold Rdiv; ring).
  rewrite Nr. rewrite (SS_reverse j1 m1 j2 m2 J E). assert (P : phase (j1 + j2 - J) * phase (j1 + j2 - J) = 1) by apply phase_sq.
  replace (j1 - - m1)%Z with (j1 + m1)%Z by lia. replace (j2 + - m2)%Z with (j2 - m2)%Z by lia. replace (J - j2 + - m1)%Z with (J - j2 - m1)%Z by lia. replace (J - j1 - - m2)%Z with (J - j1 + m2)%Z by lia.
  set (X := SS _ _ _ _ _). transitivity ((phase (j1 + j2 - J) * phase (j1 + j2 - J)) * (sqrt (nrm j1 m1 j2 m2 J M) * X)); [rewrite P; ring|ring].
Qed.

(** Coupling with spin zero *)
Lemma spin0 j m : projection j m -> CG j m 0 0 j m = Some 1.
Proof.
  intros [B E]. rewrite CG_cg by lia. f_equal. rewrite Z.add_0_r, Z.eqb_refl. unfold cg, nn. replace (j + 0 - j)%Z with 0%Z by lia. change (0 / 2)%Z with 0%Z. change ((0 + 0) / 2)%Z with 0%Z.
  unfold SS. cbn [Z.to_nat sig]. unfold T. cbn [Z.of_nat]. rewrite !Z.sub_0_r, !Z.add_0_r. replace ((j - j) / 2)%Z with 0%Z by (rewrite Z.sub_diag; reflexivity).
  assert (R0 : rf 0 = 1) by (rewrite rf_pos by lia; change (F 0) with 1; field). rewrite R0. change (sg 0) with 1.
  assert (0 <= (j - m) / 2)%Z by (apply Z.div_pos; lia). assert (0 <= (j + m) / 2)%Z by (apply Z.div_pos; lia). rewrite !rf_pos by assumption.
  assert (Nr : nrm j m 0 0 j m = (F ((j + m) / 2) * F ((j - m) / 2)) * (F ((j + m) / 2) * F ((j - m) / 2))).
  { unfold nrm. rewrite !Z.add_0_r, !Z.sub_0_r, Z.sub_diag. change (0 / 2)%Z with 0%Z. change (F 0) with 1. replace ((j + j) / 2)%Z with j by (replace (j + j)%Z with (j * 2)%Z by ring; now rewrite Z.div_mul by lia).
    replace ((j + j + 2) / 2)%Z with (j + 1)%Z by (replace (j + j + 2)%Z with ((j + 1) * 2)%Z by ring; now rewrite Z.div_mul by lia). rewrite (F_succ j) by lia. field. split; [apply F_neq|]. apply IZR_neq. lia. }
  rewrite Nr, sqrt_square by (left; apply Rmult_lt_0_compat; apply F_pos). field. split; apply F_neq.
Qed.

(** ** Orthonormality *)
Definition KK (A B n : Z) : R := IZR (A + B - n - n + 1) * (F (A - n) * F (B - n) * F n) / F (A + B - n + 1).
Lemma KK_nonneg A B n : (n + n <= A + B)%Z -> 0 <= KK A B n.
Proof. intro H. unfold KK, Rdiv. assert (0 <= IZR (A + B - n - n + 1)) by (apply IZR_le; lia). repeat apply Rmult_le_pos; try (left; apply F_pos); auto. left. apply Rinv_0_lt_compat, F_pos. Qed.
Lemma dbl k : ((2 * k) / 2 = k)%Z.
Proof. rewrite Z.mul_comm. now rewrite Z.div_mul by lia. Qed.
(** The coefficient by x, y, n. *)
Lemma cg_state A B n x y : let J := (A + B - 2 * n)%Z in let m1 := (2 * x - A)%Z in let m2 := (2 * y - B)%Z in (0 <= J)%Z ->
  cg A m1 B m2 J (m1 + m2) = sqrt (KK A B n * (F (x + y - n) * F (A + B - n - (x + y)))) * (sqrt (w A B x y) * St A B n x y).
Proof.
  intros J m1 m2 HJ. unfold cg, St, nn. unfold J, m1, m2.
  replace (A + B - (A + B - 2 * n))%Z with (2 * n)%Z by lia. replace (A - (2 * x - A))%Z with (2 * (A - x))%Z by lia. replace (B + (2 * y - B))%Z with (2 * y)%Z by lia.
  replace (A + B - 2 * n - B + (2 * x - A))%Z with (2 * (x - n))%Z by lia. replace (A + B - 2 * n - A - (2 * y - B))%Z with (2 * (B - y - n))%Z by lia. rewrite !dbl.
  assert (Nr : nrm A (2 * x - A) B (2 * y - B) (A + B - 2 * n) (2 * x - A + (2 * y - B)) = KK A B n * (F (x + y - n) * F (A + B - n - (x + y))) * w A B x y).
  { unfold nrm, KK, w. replace (A + B - 2 * n + A - B)%Z with (2 * (A - n))%Z by lia. replace (A + B - 2 * n - A + B)%Z with (2 * (B - n))%Z by lia. replace (A + B - (A + B - 2 * n))%Z with (2 * n)%Z by lia.
    replace (A + (2 * x - A))%Z with (2 * x)%Z by lia. replace (A - (2 * x - A))%Z with (2 * (A - x))%Z by lia. replace (B + (2 * y - B))%Z with (2 * y)%Z by lia. replace (B - (2 * y - B))%Z with (2 * (B - y))%Z by lia.
    replace (A + B - 2 * n + (2 * x - A + (2 * y - B)))%Z with (2 * (x + y - n))%Z by lia. replace (A + B - 2 * n - (2 * x - A + (2 * y - B)))%Z with (2 * (A + B - n - (x + y)))%Z by lia.
    replace (A + B - 2 * n + A + B + 2)%Z with (2 * (A + B - n + 1))%Z by lia. rewrite !dbl. replace (A + B - 2 * n + 1)%Z with (A + B - n - n + 1)%Z by lia. unfold Rdiv. ring. }
  rewrite Nr, sqrt_mult_alt; [ring|]. apply Rmult_le_pos; [apply KK_nonneg; unfold J in HJ; lia|]. left. apply Rmult_lt_0_compat; apply F_pos.
Qed.
Lemma sum_sig N f : sum_over (map (fun i => f (Z.of_nat i)) (seq 0 (S N))) (fun r => r) = sig N (fun i => f (Z.of_nat i)).
Proof.
  assert (G : forall l k, sum_over (l ++ k) (fun r => r) = sum_over l (fun r => r) + sum_over k (fun r => r)) by (induction l as [|a l IH]; intro k; cbn; [ring|rewrite IH; ring]).
  induction N as [|N IH]; [cbn; ring|]. rewrite seq_S, map_app, G, IH. cbn. ring.
Qed.
Lemma sum_map {X Y} (g : X -> Y) l f : sum_over (map g l) f = sum_over l (fun x => f (g x)).
Proof. induction l as [|a l IH]; [reflexivity|]. cbn. now rewrite IH. Qed.
Lemma sum_projections j f : (0 <= j)%Z -> sum_over (projections j) f = sig (Z.to_nat j) (fun i => f (- j + 2 * Z.of_nat i)%Z).
Proof.
  intro H. unfold projections. destruct (Z.ltb_spec j 0); [lia|]. rewrite sum_map. rewrite <- (sum_sig (Z.to_nat j) (fun z => f (- j + 2 * z)%Z)). rewrite sum_map. reflexivity.
Qed.

Lemma orthonormal j1 j2 J J' M : couples j1 j2 J -> couples j1 j2 J' -> projection J M ->
  sum_over (projections j1) (fun m1 => value (CG j1 m1 j2 (M - m1) J M) * value (CG j1 m1 j2 (M - m1) J' M)) = if Z.eqb J J' then 1 else 0.
Proof.
  intros [T1 E1] [T2 E2] [P Ep]. set (A := j1) in *. set (B := j2) in *.
  assert (EM : Z.even (A + B + M) = true) by (replace (A + B + M)%Z with ((A + B - J) + (J - M) + 2 * M)%Z by lia; rewrite !Z.even_add, E1, Ep, Z.even_mul; reflexivity).
  set (n := ((A + B - J) / 2)%Z). set (n' := ((A + B - J') / 2)%Z). set (s := ((A + B + M) / 2)%Z).
  assert (Hn : (A + B - J = 2 * n)%Z) by now apply even_half. assert (Hn' : (A + B - J' = 2 * n')%Z) by now apply even_half. assert (Hs : (A + B + M = 2 * s)%Z) by now apply even_half.
  rewrite sum_projections by lia.
  set (c := fun k => sqrt (KK A B k * (F (s - k) * F (A + B - k - s)))).
  assert (Val : forall k JJ i, (JJ = A + B - 2 * k)%Z -> (0 <= JJ)%Z -> value (CG A (- A + 2 * Z.of_nat i) B (M - (- A + 2 * Z.of_nat i)) JJ M) = c k * (sqrt (w A B (Z.of_nat i) (s - Z.of_nat i)) * St A B k (Z.of_nat i) (s - Z.of_nat i))).
  { intros k JJ i -> HJJ. rewrite CG_cg by exact HJJ. cbn [value]. set (x := Z.of_nat i). replace (- A + 2 * x + (M - (- A + 2 * x)))%Z with M by lia. rewrite Z.eqb_refl.
    replace (M - (- A + 2 * x))%Z with (2 * (s - x) - B)%Z by lia. replace (- A + 2 * x)%Z with (2 * x - A)%Z by lia. replace M with (2 * x - A + (2 * (s - x) - B))%Z by lia.
    rewrite cg_state by exact HJJ. unfold c. replace (x + (s - x))%Z with s by lia. reflexivity. }
  transitivity (c n * c n' * H A B n n' s).
  - unfold H. rewrite <- sig_scal. apply sig_ext. intros i _. cbn zeta. rewrite (Val n J), (Val n' J') by lia.
    assert (W : sqrt (w A B (Z.of_nat i) (s - Z.of_nat i)) * sqrt (w A B (Z.of_nat i) (s - Z.of_nat i)) = w A B (Z.of_nat i) (s - Z.of_nat i)).
    { apply sqrt_sqrt. unfold w. repeat apply Rmult_le_pos; left; apply F_pos. }
    rewrite <- W at 3. ring.
  - destruct (Z.eqb_spec J J') as [E | E].
    + assert (En : n' = n) by lia. rewrite En. unfold c. rewrite sqrt_sqrt.
      * transitivity (KK A B n * (F (s - n) * F (A + B - n - s) * H A B n n s)); [ring|]. rewrite H_same by lia. rewrite H_top by lia. unfold KK.
        rewrite (F_succ (A + B - n - n)) by lia. field. repeat split; try apply F_neq. apply IZR_neq. lia.
      * apply Rmult_le_pos; [apply KK_nonneg; lia|]. left. apply Rmult_lt_0_compat; apply F_pos.
    + assert (Z0 : H A B n n' s = 0); [|rewrite Z0; ring]. destruct (Z_lt_dec n' n); [apply H_orth; lia|]. rewrite H_sym. apply H_orth; lia.
Qed.

(** ** A permutation of the three spins *)
Lemma permute j1 m1 j2 m2 J : (0 <= j1)%Z -> (0 <= J)%Z -> projection j2 m2 -> Z.even (j1 - m1) = true -> Z.even (j1 + j2 - J) = true ->
  value (CG j1 m1 j2 m2 J (m1 + m2)) = phase (j2 + m2) * sqrt ((IZR J + 1) / (IZR j1 + 1)) * value (CG J (- (m1 + m2)) j2 m2 j1 (- m1)).
Proof.
  intros H1 HJ [P2 E2] Em E. rewrite !CG_cg by assumption. cbn [value]. rewrite Z.eqb_refl. destruct (Z.eqb_spec (- (m1 + m2) + m2) (- m1)); [|lia]. unfold cg. clear e.
  assert (Eb : Z.even (j2 + m2) = true) by (replace (j2 + m2)%Z with (j2 - m2 + 2 * m2)%Z by lia; rewrite Z.even_add, E2, Z.even_mul; reflexivity).
  assert (H1' : 0 < IZR j1 + 1) by (rewrite <- plus_IZR; apply IZR_lt; lia). assert (HJ' : 0 < IZR J + 1) by (rewrite <- plus_IZR; apply IZR_lt; lia).
  assert (Nr : nrm j1 m1 j2 m2 J (m1 + m2) = (IZR J + 1) / (IZR j1 + 1) * nrm J (- (m1 + m2)) j2 m2 j1 (- m1)).
  { unfold nrm. replace (J + - (m1 + m2))%Z with (J - (m1 + m2))%Z by lia. replace (J - - (m1 + m2))%Z with (J + (m1 + m2))%Z by lia. replace (j1 + - m1)%Z with (j1 - m1)%Z by lia. replace (j1 - - m1)%Z with (j1 + m1)%Z by lia.
    replace (j1 + J - j2)%Z with (J + j1 - j2)%Z by lia. replace (j1 - J + j2)%Z with (j1 + j2 - J)%Z by lia. replace (J + j2 - j1)%Z with (J - j1 + j2)%Z by lia. replace (j1 + J + j2 + 2)%Z with (J + j1 + j2 + 2)%Z by lia.
    rewrite !plus_IZR. field. split; [apply F_neq|lra]. }
  rewrite Nr, sqrt_mult_alt by (left; apply Rdiv_lt_0_compat; assumption).
  assert (S1 : SS (nn j1 j2 J) ((j1 - m1) / 2) ((j2 + m2) / 2) ((J - j2 + m1) / 2) ((J - j1 - m2) / 2) =
               phase (j2 + m2) * SS (nn J j2 j1) ((J - - (m1 + m2)) / 2) ((j2 + m2) / 2) ((j1 - j2 + - (m1 + m2)) / 2) ((j1 - J - m2) / 2)).
  { rewrite SS_swap_nb, SS_rev by (apply Z.div_pos; lia). rewrite phase_sg by lia. f_equal. rewrite (SS_swap_nb (nn J j2 j1)). unfold nn.
    rewrite <- !(half_shift _ (j2 + m2) Eb). assert (Sb : forall t, (t / 2 - (j2 + m2) / 2 = (t - (j2 + m2)) / 2)%Z) by (intro t; rewrite (even_half _ Eb) at 2; now rewrite half_sub).
    rewrite !Sb. f_equal; f_equal; lia. }
  rewrite S1. ring.
Qed.

(** ** Sums over lists *)
Lemma sum_ext {X} (l : list X) f g : (forall x, In x l -> f x = g x) -> sum_over l f = sum_over l g.
Proof. induction l as [|a l IH]; intro H; [reflexivity|]. cbn. rewrite IH, H by (intros; try apply H; now (left + right)). reflexivity. Qed.
Lemma sum_add {X} (l : list X) f g : sum_over l (fun x => f x + g x) = sum_over l f + sum_over l g.
Proof. induction l as [|a l IH]; cbn; [ring|]. rewrite IH. ring. Qed.
Lemma sum_mul {X} (l : list X) c f : sum_over l (fun x => c * f x) = c * sum_over l f.
Proof. induction l as [|a l IH]; cbn; [ring|]. rewrite IH. ring. Qed.
Lemma sum_none {X} (l : list X) f : (forall x, In x l -> f x = 0) -> sum_over l f = 0.
Proof. intro H. induction l as [|a l IH]; [reflexivity|]. cbn. rewrite IH, H by (intros; try apply H; now (left + right)). ring. Qed.
Lemma sum_swap {X Y} (l : list X) (k : list Y) f : sum_over l (fun a => sum_over k (fun b => f a b)) = sum_over k (fun b => sum_over l (fun a => f a b)).
Proof. induction l as [|a l IH]; cbn; [symmetry; now apply sum_none|]. rewrite IH, <- sum_add. reflexivity. Qed.
Lemma sum_ind (l : list Z) x (f : Z -> R) : NoDup l -> In x l -> sum_over l (fun a => if Z.eqb a x then f a else 0) = f x.
Proof.
  induction 1 as [|a l N D IH]; [intros []|]. intros [-> | I]; cbn.
  - rewrite Z.eqb_refl, sum_none; [ring|]. intros b Hb. destruct (Z.eqb_spec b x); [subst; contradiction|reflexivity].
  - destruct (Z.eqb_spec a x); [subst; contradiction|]. rewrite IH by exact I. ring.
Qed.
Lemma sum_sub (l k : list Z) f : NoDup l -> NoDup k -> (forall x, In x k -> In x l) -> (forall x, In x l -> ~ In x k -> f x = 0) -> sum_over l f = sum_over k f.
Proof.
  intros Dl Dk I Z0. transitivity (sum_over l (fun a => sum_over k (fun b => if Z.eqb b a then f b else 0))).
  - apply sum_ext. intros a Ia. destruct (in_dec Z.eq_dec a k) as [Ik | Ik]; [now rewrite sum_ind|]. rewrite Z0 by assumption. symmetry. apply sum_none. intros b Ib. destruct (Z.eqb_spec b a); [subst; contradiction|reflexivity].
  - rewrite sum_swap. apply sum_ext. intros b Ib. transitivity (sum_over l (fun a => if Z.eqb a b then f a else 0)); [|now apply sum_ind; auto].
    apply sum_ext. intros a _. rewrite Z.eqb_sym. destruct (Z.eqb_spec a b); [now subst|reflexivity].
Qed.
Lemma in_projections j m : In m (projections j) <-> projection j m.
Proof.
  unfold projections, projection. rewrite in_map_iff. destruct (Z.ltb_spec j 0).
  - split; [intros (i & _ & [])|lia].
  - split.
    + intros (i & <- & I). apply in_seq in I. split; [lia|]. replace (j - (- j + 2 * Z.of_nat i))%Z with (2 * (j - Z.of_nat i))%Z by lia. now rewrite Z.even_mul.
    + intros [B E]. exists (Z.to_nat ((j + m) / 2)). assert (Q : Z.even (j + m) = true) by (replace (j + m)%Z with (j - m + 2 * m)%Z by lia; rewrite Z.even_add, E, Z.even_mul; reflexivity).
      pose proof (even_half _ Q). assert (0 <= (j + m) / 2)%Z by (apply Z.div_pos; lia). split; [lia|]. apply in_seq. lia.
Qed.
Lemma nodup_projections j : NoDup (projections j).
Proof.
  unfold projections. generalize (if (j <? 0)%Z then 0%nat else S (Z.to_nat j)) as k. intro k. generalize 0%nat as b. induction k as [|k IH]; intro b; [constructor|]. cbn [seq map]. constructor; [|apply IH].
  intro I. apply in_map_iff in I as (i & E & I). apply in_seq in I. lia.
Qed.

(** ** Recoupling constants *)
Definition factor (J L S j1 j2 m1 m2 : Z) : R := sqrt ((IZR L + 1) / (IZR J + 1)) * (value (CG L 0 S (m1 - m2) J (m1 - m2)) * value (CG j1 m1 j2 (- m2) S (m1 - m2))).
Lemma keep_all l : (forall x, In x l -> x <> None) -> exists k, keep l = Some k.
Proof.
  induction l as [|[f|] r IH]; intro H; [now exists []| |exfalso; apply (H None); [now left|reflexivity]]. destruct IH as [k E]; [intros; apply H; now right|]. cbn. rewrite E. eauto.
Qed.
Lemma keep_coefficient l k : keep l = Some k -> (forall f g, In (Some f) l -> In (Some g) l -> f_m1 f = f_m1 g -> f_m2 f = f_m2 g -> f_factor f = f_factor g) ->
  forall m1 m2, (forall f, In (Some f) l -> f_m1 f = m1 -> f_m2 f = m2 -> coefficient k m1 m2 = f_factor f) /\ ((forall f, In (Some f) l -> ~ (f_m1 f = m1 /\ f_m2 f = m2)) -> coefficient k m1 m2 = 0).
Proof.
  revert k; induction l as [|[f|] r IH]; intros k K U m1 m2; cbn in K; [|destruct (keep r) as [k'|] eqn:Kr; [|discriminate]|discriminate].
  - injection K as <-. split; [intros f []|reflexivity].
  - destruct (IH k' eq_refl (fun f g A B => U f g (or_intror A) (or_intror B)) m1 m2) as [I1 I2].
    assert (Ek : coefficient k m1 m2 = if ((f_m1 f =? m1)%Z && (f_m2 f =? m2)%Z)%bool then (if Req_EM_T (f_factor f) 0 then coefficient k' m1 m2 else f_factor f) else coefficient k' m1 m2).
    { injection K as <-. destruct (Req_EM_T (f_factor f) 0); cbn [coefficient]; destruct ((f_m1 f =? m1)%Z && (f_m2 f =? m2)%Z)%bool; reflexivity. }
    rewrite Ek. destruct (Z.eqb_spec (f_m1 f) m1) as [E1 | E1], (Z.eqb_spec (f_m2 f) m2) as [E2 | E2]; cbn [andb].
    + assert (V : (if Req_EM_T (f_factor f) 0 then coefficient k' m1 m2 else f_factor f) = f_factor f).
      { destruct (Req_EM_T (f_factor f) 0) as [Z0 | Z0]; [|reflexivity]. rewrite Z0.
        assert (D : (exists g, In (Some g) r /\ f_m1 g = m1 /\ f_m2 g = m2) \/ (forall g, In (Some g) r -> ~ (f_m1 g = m1 /\ f_m2 g = m2))).
        { clear. induction r as [|[g|] r IH]; [right; intros g []| |].
          - destruct IH as [(h & I & E) | N]; [left; exists h; split; [now right|exact E]|].
            destruct (Z.eq_dec (f_m1 g) m1), (Z.eq_dec (f_m2 g) m2); [left; exists g; split; [now left|auto]| | |]; right; intros h [Q | I]; try (injection Q as <-; tauto); now apply N.
          - destruct IH as [(h & I & E) | N]; [left; exists h; split; [now right|exact E]|right; intros h [Q | I]; [discriminate|now apply N]]. }
        destruct D as [(g & Ig & Eg1 & Eg2) | N]; [|now apply I2]. rewrite (I1 g Ig Eg1 Eg2). rewrite <- Z0. symmetry. apply U; [now left|now right|congruence|congruence]. }
      rewrite V. split; [|intro N; exfalso; apply (N f); [now left|auto]]. intros g [Q | I] G1 G2; [injection Q as <-; reflexivity|]. apply U; [now left|now right|congruence|congruence].
    + split; [intros g [Q | I] G1 G2; [injection Q as <-; contradiction|now apply I1]|intro N; apply I2; intros g I; apply N; now right].
    + split; [intros g [Q | I] G1 G2; [injection Q as <-; contradiction|now apply I1]|intro N; apply I2; intros g I; apply N; now right].
    + split; [intros g [Q | I] G1 G2; [injection Q as <-; contradiction|now apply I1]|intro N; apply I2; intros g I; apply N; now right].
Qed.
Lemma recoupling_factor J L S j1 j2 : (0 <= J)%Z -> (0 <= S)%Z -> exists l, recoupling J L S j1 j2 = Some l /\
  forall m1 m2, projection j1 m1 -> projection j2 m2 -> coefficient l m1 m2 = factor J L S j1 j2 m1 m2.
Proof.
  intros HJ HS. unfold recoupling. set (ls := flat_map _ _).
  assert (Tm : forall m1 m2, recoupling_term J L S j1 j2 m1 m2 = Some (mkLS m1 m2 (value (CG L 0 S (m1 - m2) J (m1 - m2))) (value (CG j1 m1 j2 (- m2) S (m1 - m2))) (factor J L S j1 j2 m1 m2))).
  { intros m1 m2. unfold recoupling_term, factor. rewrite !CG_cg by assumption. reflexivity. }
  assert (In_ls : forall o, In o ls <-> exists m1 m2, projection j1 m1 /\ projection j2 m2 /\ o = Some (mkLS m1 m2 (value (CG L 0 S (m1 - m2) J (m1 - m2))) (value (CG j1 m1 j2 (- m2) S (m1 - m2))) (factor J L S j1 j2 m1 m2))).
  { intro o. unfold ls. rewrite in_flat_map. split.
    - intros (m1 & I1 & I2). apply in_map_iff in I2 as (m2 & <- & I2). exists m1, m2. rewrite <- !in_projections. auto.
    - intros (m1 & m2 & P1 & P2 & ->). exists m1. rewrite in_projections. split; [exact P1|]. apply in_map_iff. exists m2. rewrite in_projections. auto. }
  destruct (keep_all ls) as [k K]; [intros x I; apply In_ls in I as (a & b & _ & _ & ->); discriminate|]. exists k. split; [exact K|].
  intros m1 m2 P1 P2. destruct (keep_coefficient ls k K) with (m1 := m1) (m2 := m2) as [C _].
  - intros f g If Ig. apply In_ls in If as (a & b & _ & _ & Ef), Ig as (c & d & _ & _ & Eg). injection Ef as ->. injection Eg as ->. cbn. intros -> ->. reflexivity.
  - rewrite (C (mkLS m1 m2 (value (CG L 0 S (m1 - m2) J (m1 - m2))) (value (CG j1 m1 j2 (- m2) S (m1 - m2))) (factor J L S j1 j2 m1 m2))); [reflexivity| |reflexivity|reflexivity]. apply In_ls. eauto 6.
Qed.

Lemma value_selection j1 m1 j2 m2 J M : (0 <= J)%Z -> ~ allowed j1 m1 j2 m2 J M -> value (CG j1 m1 j2 m2 J M) = 0.
Proof. intros HJ N. now rewrite selection. Qed.

Lemma recoupling_orthonormal J L S L' S' j1 j2 : (0 <= J)%Z -> couples j1 j2 S -> couples j1 j2 S' -> couples L S J -> couples L' S' J -> Z.even L = true -> Z.even L' = true ->
  sum_over (projections j1) (fun m1 => sum_over (projections j2) (fun m2 => factor J L S j1 j2 m1 m2 * factor J L' S' j1 j2 m1 m2)) = if ((L =? L') && (S =? S'))%Z%bool then 1 else 0.
Proof.
  intros HJ CS CS' CL CL' EL EL'. pose proof CS as [TS ES]. pose proof CS' as [TS' ES']. pose proof CL as [TL EJ]. pose proof CL' as [TL' EJ'].
  set (g := fun a => sqrt ((IZR L + 1) / (IZR J + 1)) * sqrt ((IZR L' + 1) / (IZR J + 1)) * (value (CG L 0 S a J a) * value (CG L' 0 S' a J a))).
  set (h := fun a m1 => value (CG j1 m1 j2 (a - m1) S a) * value (CG j1 m1 j2 (a - m1) S' a)).
  assert (Even_sum : forall m1 m2, projection j1 m1 -> projection j2 m2 -> projection (j1 + j2) (m1 - m2)).
  { intros m1 m2 [B1 E1] [B2 E2]. split; [lia|]. replace (j1 + j2 - (m1 - m2))%Z with ((j1 - m1) + (j2 - m2) + 2 * m2)%Z by lia. rewrite !Z.even_add, E1, E2, Z.even_mul. reflexivity. }
  (* group by the difference of the helicities *)
  transitivity (sum_over (projections (j1 + j2)) (fun a => g a * sum_over (projections j1) (fun m1 => h a m1))).
  { transitivity (sum_over (projections j1) (fun m1 => sum_over (projections j2) (fun m2 => sum_over (projections (j1 + j2)) (fun a => if Z.eqb a (m1 - m2) then g a * h a m1 else 0)))).
    - apply sum_ext. intros m1 I1. apply sum_ext. intros m2 I2. rewrite in_projections in I1, I2. rewrite sum_ind; [|apply nodup_projections|apply in_projections; now apply Even_sum].
      unfold g, h, factor. replace (m1 - m2 - m1)%Z with (- m2)%Z by lia. ring.
    - transitivity (sum_over (projections j1) (fun m1 => sum_over (projections (j1 + j2)) (fun a => sum_over (projections j2) (fun m2 => if Z.eqb a (m1 - m2) then g a * h a m1 else 0)))); [apply sum_ext; intros; apply sum_swap|].
      rewrite sum_swap. apply sum_ext. intros a Ia. rewrite <- sum_mul. apply sum_ext. intros m1 I1. rewrite in_projections in Ia, I1.
      transitivity (sum_over (projections j2) (fun m2 => if Z.eqb m2 (m1 - a) then g a * h a m1 else 0)); [apply sum_ext; intros m2 _; destruct (Z.eqb_spec a (m1 - m2)), (Z.eqb_spec m2 (m1 - a)); reflexivity || lia|].
      destruct (in_dec Z.eq_dec (m1 - a)%Z (projections j2)) as [I2 | N2]; [now rewrite (sum_ind _ _ (fun _ => g a * h a m1)) by (auto using nodup_projections)|].
      rewrite sum_none by (intros m2 I2; destruct (Z.eqb_spec m2 (m1 - a)); [subst; contradiction|reflexivity]).
      assert (Z0 : value (CG j1 m1 j2 (a - m1) S a) = 0); [|unfold h; rewrite Z0; ring]. apply value_selection; [lia|]. intros (_ & _ & B & _). apply N2. apply in_projections. split; [lia|].
      destruct Ia as [_ Ea], I1 as [_ E1]. replace (j2 - (m1 - a))%Z with ((j1 + j2 - a) - (j1 - m1) + 2 * (a - m1))%Z by lia. rewrite Z.even_add, Z.even_sub, Ea, E1, Z.even_mul. reflexivity. }
  (* only |a| <= S *)
  rewrite (sum_sub (projections (j1 + j2)) (projections S)); try apply nodup_projections.
  2:{ intros a Ia. apply in_projections. apply in_projections in Ia as [B E]. split; [lia|]. replace (j1 + j2 - a)%Z with ((j1 + j2 - S) + (S - a))%Z by lia. rewrite Z.even_add, ES, E. reflexivity. }
  2:{ intros a Ia N. assert (Z0 : value (CG L 0 S a J a) = 0); [|unfold g; rewrite Z0; ring]. apply value_selection; [exact HJ|]. intros (_ & _ & B & _). apply N. apply in_projections in Ia as [_ E]. apply in_projections. split; [lia|].
      replace (S - a)%Z with ((j1 + j2 - a) - (j1 + j2 - S))%Z by lia. rewrite Z.even_sub, ES, E. reflexivity. }
  transitivity (sum_over (projections S) (fun a => if Z.eqb S S' then g a else 0)).
  { apply sum_ext. intros a Ia. apply in_projections in Ia. unfold h. rewrite (orthonormal j1 j2 S S' a CS CS' Ia). destruct (Z.eqb S S'); ring. }
  destruct (Z.eqb_spec S S') as [<- | NS]; [|rewrite Bool.andb_false_r; apply sum_none; reflexivity]. rewrite Bool.andb_true_r.
  (* couple J and S to L *)
  assert (pos : forall z, (0 <= z)%Z -> 0 < IZR z + 1) by (intros z Hz; rewrite <- plus_IZR; apply IZR_lt; lia).
  assert (HL : (0 <= L)%Z) by lia. assert (HL' : (0 <= L')%Z) by lia.
  assert (G : forall a, In a (projections S) -> g a = phase (J + S - L) * phase (J + S - L') * (value (CG S a J (0 - a) L 0) * value (CG S a J (0 - a) L' 0))).
  { intros a Ia. apply in_projections in Ia. unfold g.
    assert (Pm : forall l, (0 <= l)%Z -> Z.even l = true -> Z.even (l + S - J) = true -> sqrt ((IZR l + 1) / (IZR J + 1)) * value (CG l 0 S a J a) = phase (S + a) * (phase (J + S - l) * value (CG S a J (0 - a) l 0))).
    { intros l Hl El Ej. pose proof (permute l 0 S a J Hl HJ Ia) as Q. rewrite Z.sub_0_r, !Z.add_0_l in Q. rewrite Q by assumption. change (- 0)%Z with 0%Z.
      assert (Ej' : Z.even (J + S - l) = true) by (replace (J + S - l)%Z with ((l + S - J) + 2 * (J - l))%Z by lia; rewrite Z.even_add, Ej, Z.even_mul; reflexivity).
      assert (X : value (CG J (- a) S a l 0) = phase (J + S - l) * value (CG S a J (0 - a) l 0)).
      { replace (0 - a)%Z with (- a)%Z by lia. rewrite (exchange J (- a) S a l 0 Hl Ej'). rewrite <- Rmult_assoc, phase_sq. ring. }
      rewrite X. assert (Sq : sqrt ((IZR l + 1) / (IZR J + 1)) * sqrt ((IZR J + 1) / (IZR l + 1)) = 1).
      { pose proof (pos l Hl). pose proof (pos J HJ). rewrite <- sqrt_mult_alt by (left; apply Rdiv_lt_0_compat; assumption). replace ((IZR l + 1) / (IZR J + 1) * ((IZR J + 1) / (IZR l + 1))) with 1 by (field; lra). apply sqrt_1. }
      set (q := sqrt ((IZR l + 1) / (IZR J + 1))) in *. set (r := sqrt ((IZR J + 1) / (IZR l + 1))) in *. transitivity ((q * r) * (phase (S + a) * (phase (J + S - l) * value (CG S a J (0 - a) l 0)))); [ring|]. rewrite Sq. ring. }
    transitivity ((sqrt ((IZR L + 1) / (IZR J + 1)) * value (CG L 0 S a J a)) * (sqrt ((IZR L' + 1) / (IZR J + 1)) * value (CG L' 0 S a J a))); [ring|]. rewrite !Pm by assumption.
    transitivity ((phase (S + a) * phase (S + a)) * (phase (J + S - L) * phase (J + S - L') * (value (CG S a J (0 - a) L 0) * value (CG S a J (0 - a) L' 0)))); [ring|]. rewrite phase_sq. ring. }
  etransitivity; [exact (sum_ext _ _ _ G)|]. rewrite sum_mul.
  assert (C : forall l, couples l S J -> couples S J l) by (intros l [B E]; split; [lia|]; replace (S + J - l)%Z with ((l + S - J) + 2 * (J - l))%Z by lia; rewrite Z.even_add, E, Z.even_mul; reflexivity).
  rewrite (orthonormal S J L L' 0 (C _ CL) (C _ CL')); [|split; [lia|]; now rewrite Z.sub_0_r]. destruct (Z.eqb_spec L L') as [<- | NL]; [|ring]. rewrite phase_sq. ring.
Qed.

(** ** Raising the projection *)
Lemma sqrt_sq_mult a b : 0 <= a -> sqrt (a * a * b) = a * sqrt b.
Proof. intro H. rewrite sqrt_mult_alt by (now apply Rmult_le_pos). now rewrite sqrt_square. Qed.
Lemma w_nonneg A B x y : 0 <= w A B x y.
Proof. unfold w. repeat apply Rmult_le_pos; left; apply F_pos. Qed.
Lemma raising j1 m1 j2 m2 J : couples j1 j2 J -> projection j1 m1 -> projection j2 m2 -> (- J < m1 + m2 <= J)%Z ->
  sqrt (IZR ((J + (m1 + m2)) / 2) * IZR ((J - (m1 + m2)) / 2 + 1)) * value (CG j1 m1 j2 m2 J (m1 + m2)) =
  sqrt (IZR ((j1 + m1) / 2) * IZR ((j1 - m1) / 2 + 1)) * value (CG j1 (m1 - 2) j2 m2 J (m1 + m2 - 2)) +
  sqrt (IZR ((j2 + m2) / 2) * IZR ((j2 - m2) / 2 + 1)) * value (CG j1 m1 j2 (m2 - 2) J (m1 + m2 - 2)).
Proof.
  intros [Tj Ej] [B1 E1] [B2 E2] BM. set (A := j1) in *. set (B := j2) in *.
  assert (ev : forall a b, Z.even (a - b) = true -> Z.even (a + b) = true) by (intros a b E; replace (a + b)%Z with (a - b + 2 * b)%Z by lia; rewrite Z.even_add, E, Z.even_mul; reflexivity).
  set (n := ((A + B - J) / 2)%Z). assert (Hn : (A + B - J = 2 * n)%Z) by now apply even_half.
  set (x := ((A + m1) / 2)%Z). assert (Hx : (A + m1 = 2 * x)%Z) by (apply even_half; auto). set (y := ((B + m2) / 2)%Z). assert (Hy : (B + m2 = 2 * y)%Z) by (apply even_half; auto).
  replace ((J + (m1 + m2)) / 2)%Z with (x + y - n)%Z by (replace (J + (m1 + m2))%Z with (2 * (x + y - n))%Z by lia; now rewrite dbl).
  replace ((J - (m1 + m2)) / 2)%Z with (A + B - n - (x + y))%Z by (replace (J - (m1 + m2))%Z with (2 * (A + B - n - (x + y)))%Z by lia; now rewrite dbl).
  replace ((A - m1) / 2)%Z with (A - x)%Z by (replace (A - m1)%Z with (2 * (A - x))%Z by lia; now rewrite dbl).
  replace ((B - m2) / 2)%Z with (B - y)%Z by (replace (B - m2)%Z with (2 * (B - y))%Z by lia; now rewrite dbl).
  rewrite !CG_cg by lia. cbn [value]. replace (m1 - 2 + m2)%Z with (m1 + m2 - 2)%Z by lia. replace (m1 + (m2 - 2))%Z with (m1 + m2 - 2)%Z by lia. rewrite !Z.eqb_refl.
  pose proof (cg_state A B n x y) as C0. pose proof (cg_state A B n (x - 1) y) as C1. pose proof (cg_state A B n x (y - 1)) as C2. cbn zeta in C0, C1, C2.
  replace (A + B - 2 * n)%Z with J in * by lia. replace (2 * x - A)%Z with m1 in * by lia. replace (2 * y - B)%Z with m2 in * by lia. replace (2 * (x - 1) - A)%Z with (m1 - 2)%Z in * by lia. replace (2 * (y - 1) - B)%Z with (m2 - 2)%Z in * by lia.
  replace (m1 - 2 + m2)%Z with (m1 + m2 - 2)%Z in * by lia. replace (m1 + (m2 - 2))%Z with (m1 + m2 - 2)%Z in * by lia.
  rewrite C0, C1, C2 by lia. clear C0 C1 C2. replace (x - 1 + y)%Z with (x + y - 1)%Z by lia. replace (x + (y - 1))%Z with (x + y - 1)%Z by lia. set (s := (x + y)%Z) in *. set (t := (A + B - n)%Z) in *.
  set (K := KK A B n). assert (HK : 0 <= K) by (apply KK_nonneg; lia).
  assert (Hs : (1 <= s - n)%Z) by lia. assert (Ht : (0 <= t - s)%Z) by lia.
  set (c := sqrt (K * (F (s - 1 - n) * F (t - (s - 1))))).
  assert (L : sqrt (IZR (s - n) * IZR (t - s + 1)) * sqrt (K * (F (s - n) * F (t - s))) = IZR (s - n) * c).
  { rewrite <- sqrt_mult_alt by (apply Rmult_le_pos; apply IZR_le; lia). unfold c. rewrite <- sqrt_sq_mult by (apply IZR_le; lia). f_equal.
    replace (s - n)%Z with (s - 1 - n + 1)%Z at 2 by lia. rewrite F_succ by lia. replace (t - (s - 1))%Z with (t - s + 1)%Z by lia. rewrite F_succ by lia. replace (s - 1 - n + 1)%Z with (s - n)%Z by lia. ring. }
  assert (R1 : sqrt (IZR x * IZR (A - x + 1)) * (sqrt (w A B (x - 1) y) * St A B n (x - 1) y) = sqrt (w A B x y) * (IZR (A - x + 1) * St A B n (x - 1) y)).
  { destruct (Z.eq_dec x 0) as [-> | Nx]; [rewrite (St_zero A B n (0 - 1)) by lia; ring|].
    assert (Q : sqrt (IZR x * IZR (A - x + 1)) * sqrt (w A B (x - 1) y) = IZR (A - x + 1) * sqrt (w A B x y)); [|transitivity ((sqrt (IZR x * IZR (A - x + 1)) * sqrt (w A B (x - 1) y)) * St A B n (x - 1) y); [ring|]; rewrite Q; ring].
    rewrite <- sqrt_mult_alt by (apply Rmult_le_pos; apply IZR_le; lia). rewrite <- sqrt_sq_mult by (apply IZR_le; lia). f_equal.
    pose proof (w_x A B (x - 1) y ltac:(lia)) as W. replace (x - 1 + 1)%Z with x in W by lia. replace (A - (x - 1))%Z with (A - x + 1)%Z in W by lia.
    transitivity (IZR (A - x + 1) * (w A B (x - 1) y * IZR x)); [ring|]. rewrite <- W. ring. }
  assert (R2 : sqrt (IZR y * IZR (B - y + 1)) * (sqrt (w A B x (y - 1)) * St A B n x (y - 1)) = sqrt (w A B x y) * (IZR (B - y + 1) * St A B n x (y - 1))).
  { destruct (Z.eq_dec y 0) as [-> | Ny]; [rewrite (St_zero A B n x (0 - 1)) by lia; ring|].
    assert (Q : sqrt (IZR y * IZR (B - y + 1)) * sqrt (w A B x (y - 1)) = IZR (B - y + 1) * sqrt (w A B x y)); [|transitivity ((sqrt (IZR y * IZR (B - y + 1)) * sqrt (w A B x (y - 1))) * St A B n x (y - 1)); [ring|]; rewrite Q; ring].
    rewrite <- sqrt_mult_alt by (apply Rmult_le_pos; apply IZR_le; lia). rewrite <- sqrt_sq_mult by (apply IZR_le; lia). f_equal.
    pose proof (w_y A B x (y - 1) ltac:(lia)) as W. replace (y - 1 + 1)%Z with y in W by lia. replace (B - (y - 1))%Z with (B - y + 1)%Z in W by lia.
    transitivity (IZR (B - y + 1) * (w A B x (y - 1) * IZR y)); [ring|]. rewrite <- W. ring. }
  transitivity ((sqrt (IZR (s - n) * IZR (t - s + 1)) * sqrt (K * (F (s - n) * F (t - s)))) * (sqrt (w A B x y) * St A B n x y)); [ring|]. rewrite L.
  transitivity (c * (sqrt (IZR x * IZR (A - x + 1)) * (sqrt (w A B (x - 1) y) * St A B n (x - 1) y)) + c * (sqrt (IZR y * IZR (B - y + 1)) * (sqrt (w A B x (y - 1)) * St A B n x (y - 1)))); [|ring].
  rewrite R1, R2. pose proof (raise A B n x y ltac:(lia)) as Ra. fold s in Ra. transitivity (c * sqrt (w A B x y) * (IZR (s - n) * St A B n x y)); [ring|]. rewrite Ra. ring.
Qed.

(** The sign of the highest state. *)
Lemma top_sign j1 j2 J : couples j1 j2 J -> 0 < value (CG j1 j1 j2 (J - j1) J J).
Proof.
  intros [Tj E]. set (A := j1) in *. set (B := j2) in *. set (n := ((A + B - J) / 2)%Z). assert (Hn : (A + B - J = 2 * n)%Z) by now apply even_half.
  rewrite CG_cg by lia. cbn [value]. replace (A + (J - A))%Z with J by lia. rewrite Z.eqb_refl.
  pose proof (cg_state A B n A (B - n)) as C. cbn zeta in C. replace (A + B - 2 * n)%Z with J in C by lia. replace (2 * A - A)%Z with A in C by lia. replace (2 * (B - n) - B)%Z with (J - A)%Z in C by lia. replace (A + (J - A))%Z with J in C by lia.
  rewrite C by lia. clear C. apply Rmult_lt_0_compat; [|apply Rmult_lt_0_compat].
  - apply sqrt_lt_R0. apply Rmult_lt_0_compat; [|apply Rmult_lt_0_compat; apply F_pos]. unfold KK, Rdiv. apply Rmult_lt_0_compat; [|apply Rinv_0_lt_compat, F_pos]. apply Rmult_lt_0_compat; [apply IZR_lt; lia|]. repeat apply Rmult_lt_0_compat; apply F_pos.
  - apply sqrt_lt_R0. unfold w. repeat apply Rmult_lt_0_compat; apply F_pos.
  - unfold St, SS. rewrite (sig_one _ _ 0%nat); [|lia|intros k Hk Nk; apply T_zero; lia]. unfold T. cbn [Z.of_nat]. change (sg 0) with 1. rewrite !rf_pos by lia. rewrite Rmult_1_l. repeat apply Rmult_lt_0_compat; apply Rinv_0_lt_compat, F_pos.
Qed.
