From Verif.Common Require Import Prelude.
From Coq Require Import Reals Lra Psatz.
From Coquelicot Require Import Hierarchy Complex.
From Coq Require Import List.
From Verif.Lineshapes Require Import Model Spec.
Local Open Scope R_scope.

Lemma Q2_times s a b : 0 < s -> 4 * s * Q2 s a b = s * s - 2 * s * a - 2 * s * b + (a - b) * (a - b).
Proof. intro H. unfold Q2. field. lra. Qed.
Lemma Q2_factors s m1 m2 : 0 < s -> 4 * s * Q2 s (m1 * m1) (m2 * m2) = (s - (m1 + m2) * (m1 + m2)) * (s - (m1 - m2) * (m1 - m2)).
Proof. intro H. rewrite Q2_times by assumption. ring. Qed.
Lemma Q2_energy s a b : 0 < s -> Q2 s a b + a = (s + a - b) / (2 * sqrt s) * ((s + a - b) / (2 * sqrt s)).
Proof.
  intro H. pose proof (sqrt_lt_R0 s H) as K. pose proof (sqrt_sqrt s (Rlt_le _ _ H)) as E. remember (sqrt s) as e. subst s. unfold Q2. field. lra.
Qed.
Lemma Q2_sym s a b : Q2 s a b = Q2 s b a. Proof. unfold Q2, Rdiv. ring. Qed.
Lemma Q2_nonneg s m1 m2 : 0 < s -> 0 <= m1 -> 0 <= m2 -> (m1 + m2) * (m1 + m2) <= s -> 0 <= Q2 s (m1 * m1) (m2 * m2).
Proof.
  intros H H1 H2 K. pose proof (Q2_factors s m1 m2 H).
  assert (0 <= (s - (m1 + m2) * (m1 + m2)) * (s - (m1 - m2) * (m1 - m2))) by (apply Rmult_le_pos; nra). apply Rnot_lt_le. intro N. nra.
Qed.
Lemma Q2_pos s m1 m2 : 0 <= m1 -> 0 <= m2 -> (m1 + m2) * (m1 + m2) < s -> 0 < Q2 s (m1 * m1) (m2 * m2).
Proof.
  intros H1 H2 K. assert (H : 0 < s) by nra. pose proof (Q2_factors s m1 m2 H).
  assert (0 < (s - (m1 + m2) * (m1 + m2)) * (s - (m1 - m2) * (m1 - m2))) by (apply Rmult_lt_0_compat; nra). apply Rnot_le_lt. intro N. nra.
Qed.
Lemma Q2_neg s m1 m2 : 0 < s -> (m1 - m2) * (m1 - m2) < s -> s < (m1 + m2) * (m1 + m2) -> Q2 s (m1 * m1) (m2 * m2) < 0.
Proof.
  intros H H1 H2. pose proof (Q2_factors s m1 m2 H).
  assert (0 < ((m1 + m2) * (m1 + m2) - s) * (s - (m1 - m2) * (m1 - m2))) by (apply Rmult_lt_0_compat; lra). apply Rnot_le_lt. intro N. nra.
Qed.
Lemma breakup_exists s m1 m2 : 0 < s -> 0 <= m1 -> 0 <= m2 -> (m1 + m2) * (m1 + m2) <= s -> breakup s m1 m2 (sqrt (Q2 s (m1 * m1) (m2 * m2))).
Proof.
  intros H H1 H2 K. split; [apply sqrt_pos|]. pose proof (Q2_nonneg s m1 m2 H H1 H2 K) as N. rewrite sqrt_sqrt by assumption.
  pose proof (sqrt_lt_R0 s H) as P. rewrite (Q2_energy s (m1 * m1)) by assumption.
  assert (Q2 s (m1 * m1) (m2 * m2) + m2 * m2 = (s + m2 * m2 - m1 * m1) / (2 * sqrt s) * ((s + m2 * m2 - m1 * m1) / (2 * sqrt s))) as ->.
  { rewrite Q2_sym. now apply Q2_energy. }
  assert (0 <= / (2 * sqrt s)) by (apply Rlt_le, Rinv_0_lt_compat; lra).
  rewrite !sqrt_square by (unfold Rdiv; apply Rmult_le_pos; nra).
  pose proof (sqrt_sqrt s (Rlt_le _ _ H)) as E. remember (sqrt s) as e. subst s. field. lra.
Qed.
Lemma sqrt_mono x y : 0 <= x -> x <= y -> sqrt x <= sqrt y. Proof. intros. now apply sqrt_le_1_alt. Qed.
Lemma breakup_unique s m1 m2 q q' : breakup s m1 m2 q -> breakup s m1 m2 q' -> q = q'.
Proof.
  intros [P E] [P' E']. destruct (Rtotal_order q q') as [L|[->|L]]; [exfalso|reflexivity|exfalso].
  - assert (sqrt (q * q + m1 * m1) < sqrt (q' * q' + m1 * m1)) by (apply sqrt_lt_1_alt; nra).
    assert (sqrt (q * q + m2 * m2) < sqrt (q' * q' + m2 * m2)) by (apply sqrt_lt_1_alt; nra). lra.
  - assert (sqrt (q' * q' + m1 * m1) < sqrt (q * q + m1 * m1)) by (apply sqrt_lt_1_alt; nra).
    assert (sqrt (q' * q' + m2 * m2) < sqrt (q * q + m2 * m2)) by (apply sqrt_lt_1_alt; nra). lra.
Qed.
Lemma breakup_open s m1 m2 q : 0 < s -> 0 <= m1 -> 0 <= m2 -> breakup s m1 m2 q -> (m1 + m2) * (m1 + m2) <= s.
Proof.
  intros H H1 H2 [P E]. pose proof (sqrt_sqrt s (Rlt_le _ _ H)) as S. pose proof (sqrt_lt_R0 s H).
  assert (m1 <= sqrt (q * q + m1 * m1)) by (rewrite <- (sqrt_square m1) at 1 by assumption; apply sqrt_mono; nra).
  assert (m2 <= sqrt (q * q + m2 * m2)) by (rewrite <- (sqrt_square m2) at 1 by assumption; apply sqrt_mono; nra).
  rewrite <- S, <- E. apply Rmult_le_compat; lra.
Qed.

(** ** Barrier factors *)
Definition bessel (L : nat) (z : R) : R :=
  match L with
  | 0%nat => 1
  | 1%nat => 1 + z
  | 2%nat => z * z + 3 * z + 9
  | 3%nat => z * z * z + 6 * (z * z) + 45 * z + 225
  | _ => z * z * z * z + 10 * (z * z * z) + 135 * (z * z) + 1575 * z + 11025
  end.
Lemma theta_bessel L x : (L <= 4)%nat -> abs2 (theta L (0, x)) = bessel L (x * x).
Proof.
  intro H. destruct L as [|[|[|[|[|L]]]]]; [..|lia]; unfold theta, abs2; cbn; ring.
Qed.
Lemma bessel_pos L z : 0 <= z -> 0 < bessel L z.
Proof. intro H. assert (0 <= z * z) by nra. assert (0 <= z * z * z) by nra. assert (0 <= z * z * z * z) by nra. destruct L as [|[|[|[|L]]]]; cbn [bessel]; lra. Qed.
Lemma bessel_mono L z z' : 0 <= z -> z <= z' -> bessel L z <= bessel L z'.
Proof.
  intros H K. assert (z * z <= z' * z') by nra. assert (0 <= z * z) by nra. assert (z * z * z <= z' * z' * z') by nra.
  assert (0 <= z * z * z) by nra. assert (z * z * z * z <= z' * z' * z' * z') by nra. destruct L as [|[|[|[|L]]]]; cbn [bessel]; lra.
Qed.
Lemma penetration_bessel L z : (L <= 4)%nat -> 0 <= z -> penetration L (sqrt z) = / bessel L z.
Proof. intros H K. unfold penetration. rewrite theta_bessel by assumption. now rewrite sqrt_sqrt. Qed.
Lemma norm_bessel z z0 L : (L <= 3)%nat -> 0 <= z -> BlattWeisskopf_Norm z z0 L = bessel L z0 / bessel L z.
Proof.
  intros H K. pose proof (bessel_pos L z K) as P. destruct L as [|[|[|[|L]]]]; [..|lia]; cbn [BlattWeisskopf_Norm bessel] in *; (unfold Rdiv; f_equal; [ring|f_equal; ring]) || (field; try lra).
Qed.
Lemma norm_four z z0 : 0 <= z -> BlattWeisskopf_Norm z z0 4 = ((z0 * z0 - 45 * z0 + 105) ^ 2 + 25 * z * (2 * z - 21) ^ 2) / bessel 4 z.
Proof. intro H. cbn [BlattWeisskopf_Norm bessel]. unfold Rdiv. f_equal. f_equal. ring. Qed.
Lemma norm_diag z L : (L <= 4)%nat -> 0 <= z -> BlattWeisskopf_Norm z z L = 1.
Proof.
  intros H K. destruct (Nat.eq_dec L 4) as [->|N].
  - rewrite norm_four by assumption. pose proof (bessel_pos 4 z K). replace ((z * z - 45 * z + 105) ^ 2 + 25 * z * (2 * z - 21) ^ 2) with (bessel 4 z) by (cbn [bessel]; ring). field. lra.
  - rewrite norm_bessel by (assumption || lia). pose proof (bessel_pos L z K). field. lra.
Qed.
Lemma blatt_bessel z L : (L <= 4)%nat -> 0 <= z -> BlattWeisskopf z L = z ^ L * bessel L 1 / bessel L z.
Proof.
  intros H K. pose proof (bessel_pos L z K) as P. destruct L as [|[|[|[|[|L]]]]]; [..|lia]; cbn [BlattWeisskopf bessel] in *.
  - cbn. field.
  - field. lra.
  - field. lra.
  - unfold Rdiv. f_equal; [ring|]. f_equal. ring.
  - unfold Rdiv. f_equal; [ring|]. f_equal. ring.
Qed.
Lemma norm_pos z z0 L : (L <= 4)%nat -> 0 <= z -> 0 <= z0 -> 0 <= BlattWeisskopf_Norm z z0 L.
Proof.
  intros H K K0. pose proof (bessel_pos L z K) as P. destruct (Nat.eq_dec L 4) as [->|N].
  - rewrite norm_four by assumption. apply Rmult_le_pos; [|apply Rlt_le, Rinv_0_lt_compat, P].
    apply Rplus_le_le_0_compat; [apply pow2_ge_0|]. apply Rmult_le_pos; [nra|apply pow2_ge_0].
  - rewrite norm_bessel by (assumption || lia). apply Rmult_le_pos; [apply Rlt_le, bessel_pos; assumption|apply Rlt_le, Rinv_0_lt_compat, P].
Qed.

Lemma width_closed s s1 s2 mass width0 radius L : Q2 s s1 s2 <= 0 -> width s s1 s2 mass width0 radius L = 0.
Proof.
  intro H. unfold width. destruct (Rlt_dec 0 (Q2 s s1 s2)) as [N|_]; [lra|]. unfold Rdiv. rewrite !Rmult_0_l, sqrt_0. ring.
Qed.
Lemma width_pole s1 s2 mass width0 radius L : 0 < mass -> 0 < Q2 (mass * mass) s1 s2 -> (L <= 4)%nat ->
  width (mass * mass) s1 s2 mass width0 radius L = width0.
Proof.
  intros M H HL. unfold width. destruct (Rlt_dec 0 (Q2 (mass * mass) s1 s2)) as [_|N]; [|lra]. rewrite Rabs_pos_eq by lra.
  set (q := Q2 (mass * mass) s1 s2) in *. rewrite norm_diag; [|assumption|].
  2:{ rewrite Rmult_assoc. apply Rmult_le_pos; [lra|]. pose proof (Rle_0_sqr radius). unfold Rsqr in *. lra. }
  assert (q / q = 1) as -> by (field; lra). rewrite pow1. unfold Rdiv. rewrite Rmult_1_l, sqrt_inv, sqrt_square by lra. field. lra.
Qed.
Lemma width_nonneg s s1 s2 mass width0 radius L : 0 < s -> 0 <= mass -> 0 <= width0 -> (L <= 4)%nat -> 0 <= width s s1 s2 mass width0 radius L.
Proof.
  intros Hs M W HL. destruct (Rle_dec (Q2 s s1 s2) 0) as [N|N]; [rewrite width_closed by assumption; lra|].
  unfold width. destruct (Rlt_dec 0 (Q2 s s1 s2)) as [_|N']; [|lra].
  assert (0 <= radius * radius) by (pose proof (Rle_0_sqr radius); unfold Rsqr in *; lra). pose proof (Rabs_pos (Q2 (mass * mass) s1 s2)) as A.
  assert (0 <= Q2 s s1 s2 / Rabs (Q2 (mass * mass) s1 s2)).
  { destruct A as [A|A]; [apply Rmult_le_pos; [lra|apply Rlt_le, Rinv_0_lt_compat, A]|]. rewrite <- A. unfold Rdiv. rewrite Rinv_0. lra. }
  apply Rmult_le_pos; [|now apply pow_le]. apply Rmult_le_pos; [|apply sqrt_pos]. apply Rmult_le_pos; [|assumption]. apply Rmult_le_pos; [assumption|].
  apply norm_pos; [assumption|rewrite Rmult_assoc; apply Rmult_le_pos; lra|rewrite Rmult_assoc; apply Rmult_le_pos; lra].
Qed.
Lemma width_open s s1 s2 mass width0 radius L : 0 < s -> 0 < mass -> 0 < Q2 s s1 s2 -> 0 < Q2 (mass * mass) s1 s2 -> 0 <= radius -> (L <= 3)%nat ->
  let q := sqrt (Q2 s s1 s2) in let q0 := sqrt (Q2 (mass * mass) s1 s2) in
  width s s1 s2 mass width0 radius L = width0 * (q * mass / (q0 * sqrt s)) * (q / q0) ^ (2 * L) * (penetration L (q * radius) / penetration L (q0 * radius)).
Proof.
  intros Hs M H H0 HR HL q q0. assert (P : 0 < q) by now apply sqrt_lt_R0. assert (P0 : 0 < q0) by now apply sqrt_lt_R0.
  assert (E : Q2 s s1 s2 = q * q) by (symmetry; apply sqrt_sqrt; lra). assert (E0 : Q2 (mass * mass) s1 s2 = q0 * q0) by (symmetry; apply sqrt_sqrt; lra).
  unfold width. destruct (Rlt_dec 0 (Q2 s s1 s2)) as [_|N]; [|lra]. rewrite Rabs_pos_eq by lra. rewrite E, E0. clearbody q q0. clear E E0 H H0.
  rewrite norm_bessel; [|assumption|nra]. unfold penetration. rewrite !theta_bessel by lia.
  replace (q * q * radius * radius) with (q * radius * (q * radius)) by ring. replace (q0 * q0 * radius * radius) with (q0 * radius * (q0 * radius)) by ring.
  pose proof (bessel_pos L (q * radius * (q * radius)) ltac:(nra)). pose proof (bessel_pos L (q0 * radius * (q0 * radius)) ltac:(nra)).
  assert (q * q / (q0 * q0) = (q / q0) ^ 2) as -> by (field; lra). rewrite <- pow_mult.
  pose proof (sqrt_lt_R0 s Hs).
  assert (sqrt ((q / q0) ^ 2 / s) = q / q0 / sqrt s) as ->.
  { unfold Rdiv at 1. rewrite sqrt_mult, sqrt_inv; [|nra|apply Rlt_le, Rinv_0_lt_compat; assumption].
    rewrite sqrt_pow2; [reflexivity|]. apply Rlt_le, Rdiv_lt_0_compat; assumption. }
  generalize ((q / q0) ^ (2 * L)). intro. field. lra.
Qed.
Lemma pol_spec X p : pol X p = fold_right (fun c r => c + X * r) 0 p.
Proof.
  unfold pol. enough (G : forall F L, fst (fold_left (fun FL ip => (fst FL + ip * snd FL, snd FL * X)) p (F, L)) = F + L * fold_right (fun c r => c + X * r) 0 p) by (rewrite G; ring).
  induction p as [|c p IH]; intros F L; cbn [fold_left fold_right fst snd]; [ring|]. rewrite IH. ring.
Qed.
