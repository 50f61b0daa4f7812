From Verif.Common Require Import Prelude.
From Coq Require Import Reals Lra Psatz.
From Coquelicot Require Import Hierarchy Complex.
From Coq Require Import List.
From Verif.Lineshapes Require Import Model Spec BarrierProofs.
Local Open Scope R_scope.

(** ** C75 *)
(** Q2 is the square of the momentum two particles have when they come apart with invariant mass sqrt(s), and there is one exactly above the
    threshold. *)
Theorem C75_momentum : forall s m1 m2 q, 0 < s -> 0 <= m1 -> 0 <= m2 ->
  breakup s m1 m2 q <-> (m1 + m2) * (m1 + m2) <= s /\ q = sqrt (Q2 s (m1 * m1) (m2 * m2)).
Proof.
  intros s m1 m2 q H H1 H2. split.
  - intro B. pose proof (breakup_open s m1 m2 q H H1 H2 B) as O. split; [assumption|]. eapply breakup_unique; [exact B|]. now apply breakup_exists.
  - intros [O ->]. now apply breakup_exists.
Qed.
Print Assumptions C75_momentum.
Theorem C75_threshold : forall s m1 m2, 0 < s -> 0 <= m1 -> 0 <= m2 -> (m1 - m2) * (m1 - m2) < s ->
  (0 < Q2 s (m1 * m1) (m2 * m2) <-> (m1 + m2) * (m1 + m2) < s).
Proof.
  intros s m1 m2 H H1 H2 D. split; intro P; [|now apply Q2_pos]. apply Rnot_le_lt. intro N. pose proof (Q2_factors s m1 m2 H) as F.
  assert (0 <= ((m1 + m2) * (m1 + m2) - s) * (s - (m1 - m2) * (m1 - m2))) by (apply Rmult_le_pos; lra). nra.
Qed.
Print Assumptions C75_threshold.
Example C75_momentum_example : breakup 9 1 1 (sqrt (5 / 4)) /\ Q2 9 1 1 = 5 / 4 /\ Q2 3 1 1 = - (1 / 4).
Proof.
  assert (Q2 9 1 1 = 5 / 4) by (unfold Q2; lra). repeat split; [apply sqrt_pos| |assumption|unfold Q2; lra].
  rewrite sqrt_sqrt by lra. replace (5 / 4 + 1 * 1) with (3 / 2 * (3 / 2)) by lra. replace 9 with (3 * 3) by lra. rewrite !sqrt_square; lra.
Qed.

(** The barrier factors are those of the reverse Bessel polynomials, one at momentum 1 / radius, up to L = 4. *)
Theorem C75_barrier_one : forall z L, 0 <= z -> (L <= 4)%nat ->
  BlattWeisskopf z L = z ^ L * penetration L (sqrt z) / penetration L 1 /\ BlattWeisskopf 1 L = 1.
Proof.
  intros z L H HL. assert (penetration L 1 = / bessel L 1) as -> by (rewrite <- sqrt_1 at 1; apply penetration_bessel; [assumption|lra]).
  rewrite !penetration_bessel by assumption. rewrite !blatt_bessel by (assumption || lra).
  pose proof (bessel_pos L z H). pose proof (bessel_pos L 1 ltac:(lra)). rewrite pow1. split; field; lra.
Qed.
Print Assumptions C75_barrier_one.
(** Relative to another momentum: up to L = 3. The full statement has L <= 4. *)
Theorem C75_barrier_partial : forall z z0 L, 0 <= z -> 0 <= z0 -> (L <= 3)%nat ->
  BlattWeisskopf_Norm z z0 L = penetration L (sqrt z) / penetration L (sqrt z0).
Proof.
  intros z z0 L H H0 HL. rewrite !penetration_bessel by (assumption || lia). rewrite norm_bessel by assumption.
  pose proof (bessel_pos L z H). pose proof (bessel_pos L z0 H0). field. lra.
Qed.
Print Assumptions C75_barrier_partial.
(** BlattWeisskopf_Norm for L = 4 (src/Lineshapes.cpp:35): the numerator has z where it should have z0. The default form factor of a G wave,
    which has z0 = 0, is wrong by a factor of the momentum: at z = 1 it is 20050/12746 instead of 11025/12746, that is larger than at
    threshold, and it falls like 1/z instead of 1/z^4. *)
Theorem C75_barrier_refuted : exists z z0, 0 <= z /\ 0 <= z0 /\
  BlattWeisskopf_Norm z z0 4 <> penetration 4 (sqrt z) / penetration 4 (sqrt z0) /\ 1 < BlattWeisskopf_Norm z z0 4 /\ z0 < z.
Proof.
  exists 1, 0. split; [lra|]. split; [lra|]. assert (E : BlattWeisskopf_Norm 1 0 4 = 20050 / 12746) by (cbn; lra). rewrite E.
  rewrite !penetration_bessel by (lia || lra). cbn [bessel]. split; [|split; lra]. intro A. apply (f_equal (Rmult 12746)) in A.
  replace (12746 * (20050 / 12746)) with 20050 in A by field.
  match type of A with _ = ?b => replace b with 11025 in A by field end. lra.
Qed.
Print Assumptions C75_barrier_refuted.
(** The default form factor is one at threshold and falls with the momentum. The full statement has L <= 4. *)
Theorem C75_falls_partial : forall z z' L, 0 <= z -> z <= z' -> (L <= 3)%nat ->
  BlattWeisskopf_Norm 0 0 L = 1 /\ 0 < BlattWeisskopf_Norm z' 0 L <= BlattWeisskopf_Norm z 0 L.
Proof.
  intros z z' L H H' HL. rewrite !norm_bessel by (assumption || lra). pose proof (bessel_pos L z H). pose proof (bessel_pos L 0 ltac:(lra)).
  pose proof (bessel_pos L z' ltac:(lra)). split; [field; lra|]. split; [now apply Rdiv_lt_0_compat|].
  apply Rmult_le_compat_l; [lra|]. apply Rinv_le_contravar; [assumption|]. now apply bessel_mono.
Qed.
Print Assumptions C75_falls_partial.
(** Factors normalised at s0, and those of the modifier BELLE2018 *)
Theorem C75_BL : forall s0 s1 s2 radius L, Q2 s0 s1 s2 <> 0 -> radius <> 0 -> (L <= 4)%nat -> BL s0 s0 s1 s2 radius L = 1.
Proof.
  intros s0 s1 s2 radius L H R HL. unfold BL.
  assert (Z : 0 < Rabs (Q2 s0 s1 s2) * radius * radius).
  { rewrite Rmult_assoc. apply Rmult_lt_0_compat; [now apply Rabs_pos_lt|]. pose proof (Rsqr_pos_lt radius R). unfold Rsqr in *. lra. }
  rewrite blatt_bessel by (assumption || lra). pose proof (bessel_pos L (Rabs (Q2 s0 s1 s2) * radius * radius) ltac:(lra)).
  pose proof (bessel_pos L 1 ltac:(lra)). pose proof (pow_lt _ L Z).
  match goal with |- sqrt ?x = 1 => replace x with 1; [apply sqrt_1|] end. field. lra.
Qed.
Print Assumptions C75_BL.
Theorem C75_belle : forall s1 s2 mass radius L, (L <= 4)%nat -> FormFactor BELLE2018 (mass * mass) s1 s2 mass radius L = 1.
Proof.
  intros s1 s2 mass radius L HL. unfold FormFactor. rewrite norm_diag; [apply sqrt_1|assumption|]. rewrite Rmult_assoc.
  apply Rmult_le_pos; [apply Rabs_pos|]. pose proof (Rle_0_sqr radius). unfold Rsqr in *. lra.
Qed.
Print Assumptions C75_belle.
(** AmpGen/Lineshapes.h:134: the modifier BL is said to normalise the factors at sqrt(s) = m. They are normalised at momentum 1 / radius
    (src/Lineshapes/BW.cpp:70): at the mass the form factor of a P wave with momentum sqrt(5/4) and radius 2 is sqrt(5/3). *)
Theorem C75_BL_refuted : exists s1 s2 mass radius, 0 < Q2 (mass * mass) s1 s2 /\ 0 < radius /\
  FormFactor BLMod (mass * mass) s1 s2 mass radius 1 <> 1.
Proof.
  exists 1, 1, 3, 2. assert (E : Q2 (3 * 3) 1 1 = 5 / 4) by (unfold Q2; lra). rewrite E. split; [lra|]. split; [lra|]. unfold FormFactor. rewrite E.
  rewrite Rabs_pos_eq by lra. cbn [BlattWeisskopf]. intro A. apply (f_equal Rsqr) in A. unfold Rsqr in A. rewrite sqrt_sqrt in A by lra. lra.
Qed.
Print Assumptions C75_BL_refuted.
(** The second copy of the factors, for dispersive corrections: agrees with the first except for L = 2. The full statement has L <= 3. *)
Theorem C75_copy_partial : forall z L, 0 < z -> (L <= 3)%nat -> L <> 2%nat -> blatt_weisskopf_sq L z = BlattWeisskopf z L.
Proof.
  intros z L H HL N. rewrite blatt_bessel by (lia || lra). pose proof (bessel_pos L z ltac:(lra)) as P.
  destruct L as [|[|[|[|L]]]]; [..|lia]; try congruence; cbn [blatt_weisskopf_sq bessel] in *; [cbn; field|field; lra|].
  unfold Rdiv. f_equal; [ring|]. f_equal. ring.
Qed.
Print Assumptions C75_copy_partial.
(** src/Lineshapes/CoupledChannel.cpp:103 has 3*z * 9 for 3*z + 9. The D wave falls like z instead of z^2 towards threshold, and is at z = 1
    13/28 instead of 1. *)
Theorem C75_copy_refuted : exists z, 0 < z /\ blatt_weisskopf_sq 2 z <> BlattWeisskopf z 2.
Proof. exists 1. split; [lra|]. cbn. lra. Qed.
Print Assumptions C75_copy_refuted.
Example C75_barrier_example : BlattWeisskopf 4 2 = 208 / 37 /\ BlattWeisskopf_Norm 4 1 3 = 277 / 565 /\ penetration 3 2 = / 565 /\ penetration 4 1 = / 12746.
Proof.
  assert (forall x y, x = y -> / x = / y) as F by (intros; congruence).
  split; [cbn; lra|]. split; [cbn; lra|]. split; unfold penetration; apply F; rewrite theta_bessel by lia; cbn; lra.
Qed.

(** The running width is the documented one for an open channel (up to L = 3; the full statement has L <= 4) and zero for a closed one. *)
Theorem C75_width_partial : forall s s1 s2 mass width0 radius L, 0 < s -> 0 < mass -> 0 < Q2 (mass * mass) s1 s2 -> 0 <= radius -> (L <= 3)%nat ->
  let q := sqrt (Q2 s s1 s2) in let q0 := sqrt (Q2 (mass * mass) s1 s2) in
  width s s1 s2 mass width0 radius L =
    if Rlt_dec 0 (Q2 s s1 s2) then width0 * (q * mass / (q0 * sqrt s)) * (q / q0) ^ (2 * L) * (penetration L (q * radius) / penetration L (q0 * radius)) else 0.
Proof.
  intros s s1 s2 mass width0 radius L H M H0 HR HL q q0. destruct (Rlt_dec 0 (Q2 s s1 s2)) as [P|P]; [now apply width_open|]. apply width_closed. lra.
Qed.
Print Assumptions C75_width_partial.
(** At the mass it is the width, below threshold nothing, and never negative: up to L = 4. *)
Theorem C75_width_pole : forall s1 s2 mass width0 radius L, 0 < mass -> 0 < Q2 (mass * mass) s1 s2 -> (L <= 4)%nat ->
  width (mass * mass) s1 s2 mass width0 radius L = width0.
Proof. exact width_pole. Qed.
Print Assumptions C75_width_pole.
Theorem C75_width_sign : forall s m1 m2 mass width0 radius L, 0 < s -> 0 <= m1 -> 0 <= m2 -> 0 <= mass -> 0 <= width0 -> (L <= 4)%nat ->
  0 <= width s (m1 * m1) (m2 * m2) mass width0 radius L /\
  ((m1 - m2) * (m1 - m2) < s <= (m1 + m2) * (m1 + m2) -> width s (m1 * m1) (m2 * m2) mass width0 radius L = 0).
Proof.
  intros s m1 m2 mass width0 radius L H H1 H2 M W HL. split; [now apply width_nonneg|]. intros [D O]. apply width_closed. apply Rnot_lt_le. intro N.
  apply (proj1 (C75_threshold s m1 m2 H H1 H2 D)) in N. lra.
Qed.
Print Assumptions C75_width_sign.
Example C75_width_example : width 9 1 1 3 (1 / 10) 2 4 = 1 / 10 /\ width 3 1 1 3 (1 / 10) 2 4 = 0 /\ width (29 / 2 - 1 / 2) 1 1 3 (1 / 10) 0 0 > 0.
Proof.
  replace 9 with (3 * 3) by lra. split; [apply C75_width_pole; [lra|unfold Q2; lra|lia]|].
  split; [apply width_closed; unfold Q2; lra|]. rewrite C75_width_partial by (lra || lia || (unfold Q2; lra)).
  destruct (Rlt_dec 0 (Q2 (29 / 2 - 1 / 2) 1 1)) as [P|P]; [|exfalso; apply P; unfold Q2; lra].
  unfold penetration. rewrite !theta_bessel by lia. cbn [bessel Nat.mul pow]. pose proof (sqrt_lt_R0 _ P).
  assert (0 < sqrt (Q2 (3 * 3) 1 1)) by (apply sqrt_lt_R0; unfold Q2; lra). assert (0 < sqrt (29 / 2 - 1 / 2)) by (apply sqrt_lt_R0; lra).
  rewrite Rinv_1. unfold Rdiv. rewrite Rinv_1, !Rmult_1_r. apply Rmult_lt_0_compat; [lra|]. apply Rmult_lt_0_compat; [nra|]. apply Rinv_0_lt_compat. nra.
Qed.
(** The polynomial shapes *)
Theorem C75_pol : forall X p, pol X p = fold_right Rplus 0 (map (fun i => nth i p 0 * X ^ i) (seq 0 (List.length p))).
Proof.
  intros X p. rewrite pol_spec. enough (G : forall k, X ^ k * fold_right (fun c r => c + X * r) 0 p = fold_right Rplus 0 (map (fun i => nth (i - k) p 0 * X ^ i) (seq k (List.length p)))).
  { specialize (G 0%nat). rewrite pow_O, Rmult_1_l in G. rewrite G. f_equal. apply map_ext. intro a. now rewrite Nat.sub_0_r. }
  induction p as [|c p IH]; intro k; cbn [fold_right List.length seq map]; [ring|]. rewrite Nat.sub_diag. cbn [nth].
  replace (X ^ k * (c + X * fold_right (fun c r => c + X * r) 0 p)) with (c * X ^ k + X ^ S k * fold_right (fun c r => c + X * r) 0 p) by (cbn; ring).
  f_equal. rewrite IH. f_equal. apply map_ext_in. intros i Hi. apply in_seq in Hi. now replace (i - k)%nat with (S (i - S k)) by lia.
Qed.
Print Assumptions C75_pol.
Example C75_pol_example : pol 2 (1 :: 3 :: 5 :: nil) = 27.
Proof. cbn. lra. Qed.
