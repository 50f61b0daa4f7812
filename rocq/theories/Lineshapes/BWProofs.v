From Verif.Common Require Import Prelude.
From Coq Require Import Reals Lra Psatz.
From Coquelicot Require Import Hierarchy Rbar Lim_seq Continuity Derive AutoDerive RInt RInt_analysis Complex.
From Coq Require Import List.
From Verif.Lineshapes Require Import Model Spec BarrierProofs.
Local Open Scope R_scope.

Lemma atan_le y : 0 <= y -> atan y <= y.
Proof.
  intros [H|<-]; [|rewrite atan_0; lra].
  destruct (MVT_cor2 atan (fun c => / (1 + c ^ 2)) 0 y H) as (c & E & _). { intros c _. apply derivable_pt_lim_atan. }
  rewrite atan_0 in E. pose proof (pow2_ge_0 c). assert (/ (1 + c ^ 2) <= 1) by (rewrite <- Rinv_1; apply Rinv_le_contravar; lra). nra.
Qed.
Lemma atan_far u : 0 < u -> 0 <= PI / 2 - atan u <= / u.
Proof.
  intro H. rewrite <- atan_inv by assumption. assert (0 < / u) by now apply Rinv_0_lt_compat. split; [|apply atan_le; lra].
  rewrite <- atan_0. apply Rlt_le, atan_increasing. assumption.
Qed.
Lemma ln_le_pred x : 0 < x -> ln x <= x - 1.
Proof. intro H. pose proof (exp_ineq1_le (ln x)) as E. rewrite exp_ln in E by assumption. lra. Qed.
Lemma ln_div x y : 0 < x -> 0 < y -> ln (x / y) = ln x - ln y.
Proof. intros H K. unfold Rdiv. rewrite ln_mult, ln_Rinv by (assumption || now apply Rinv_0_lt_compat). ring. Qed.
Lemma squeeze f (l c X0 : R) : 0 < X0 -> (forall X, X0 < X -> Rabs (f X - l) <= c / X) -> is_lim f p_infty l.
Proof.
  intros P H. apply is_lim_spec. intro eps. exists (Rmax X0 (Rabs c / eps)). intros X HX.
  assert (X0 < X) by (pose proof (Rmax_l X0 (Rabs c / eps)); lra). assert (A : Rabs c / eps < X) by (pose proof (Rmax_r X0 (Rabs c / eps)); lra).
  eapply Rle_lt_trans; [now apply H|]. pose proof (cond_pos eps) as E. apply (Rmult_lt_reg_r X); [lra|]. replace (c / X * X) with c by (field; lra).
  apply (Rmult_lt_compat_r eps) in A; [|assumption]. replace (Rabs c / eps * eps) with (Rabs c) in A by (field; lra). pose proof (Rle_abs c). lra.
Qed.

(** ** The normalisation of the Breit-Wigner *)
Section Quartic.
  Variables (M2 G p q : R).
  Hypotheses (HG : 0 < G) (Hp : 0 < p) (Hq : 0 < q) (Ep : p * p = 2 * (G + M2)) (Eq : q * q = 2 * (G - M2)).
  Let f (E : R) := / (E * E * (E * E) - 2 * M2 * (E * E) + G * G).
  Let Gf (E : R) := / (4 * G * p) * (ln (E * E + p * E + G) - ln (E * E - p * E + G)) + / (2 * G * q) * (atan ((2 * E + p) / q) + atan ((2 * E - p) / q)).
  Lemma quad_plus E : 0 < E * E + p * E + G.
  Proof. assert (p * p + q * q = 4 * G) by lra. assert (0 <= (2 * E + p) * (2 * E + p)) by (pose proof (Rle_0_sqr (2 * E + p)); unfold Rsqr in *; lra). nra. Qed.
  Lemma quad_minus E : 0 < E * E - p * E + G.
  Proof. assert (p * p + q * q = 4 * G) by lra. assert (0 <= (2 * E - p) * (2 * E - p)) by (pose proof (Rle_0_sqr (2 * E - p)); unfold Rsqr in *; lra). nra. Qed.
  Lemma quartic_split E : E * E * (E * E) - 2 * M2 * (E * E) + G * G = (E * E + p * E + G) * (E * E - p * E + G).
  Proof.
    transitivity ((E * E + G) * (E * E + G) - p * p * (E * E)); [|ring]. rewrite Ep. ring.
  Qed.
  Lemma antiderivative E : is_derive Gf E (f E).
  Proof.
    unfold Gf. pose proof (quad_plus E) as P. pose proof (quad_minus E) as Q. auto_derive; [repeat split; trivial; lra|].
    unfold f. rewrite quartic_split.
    assert (A1 : 1 + (2 * E + p) * / q * ((2 * E + p) * / q) = 4 * (E * E + p * E + G) / (q * q)).
    { assert (4 * G = p * p + q * q) by lra. replace (4 * (E * E + p * E + G)) with (4 * (E * E) + 4 * (p * E) + 4 * G) by ring. rewrite H. field. lra. }
    assert (A2 : 1 + (2 * E + - p) * / q * ((2 * E + - p) * / q) = 4 * (E * E - p * E + G) / (q * q)).
    { assert (4 * G = p * p + q * q) by lra. replace (4 * (E * E - p * E + G)) with (4 * (E * E) - 4 * (p * E) + 4 * G) by ring. rewrite H. field. lra. }
    rewrite !Rmult_1_r.
    rewrite A1, A2. replace (E * E + - (p * E) + G) with (E * E - p * E + G) by ring.
    set (u := E * E + p * E + G) in *. set (v := E * E - p * E + G) in *.
    assert (u - v = 2 * p * E) by (unfold u, v; ring). assert (u + v = 2 * (E * E + G)) by (unfold u, v; ring).
    field_simplify_eq; [|repeat split; lra]. unfold u, v. ring.
  Qed.
  Lemma quartic_integral X : RInt f 0 X = Gf X.
  Proof.
    apply is_RInt_unique. replace (Gf X) with (minus (Gf X) (Gf 0)).
    - apply (is_RInt_derive (V := R_CompleteNormedModule) Gf f); intros E _; [apply antiderivative|].
      unfold f. apply (ex_derive_continuous (fun E => / (E * E * (E * E) - 2 * M2 * (E * E) + G * G))). auto_derive.
      replace (E * E * (E * E) + - (2 * M2 * (E * E)) + G * G) with (E * E * (E * E) - 2 * M2 * (E * E) + G * G) by ring.
      rewrite quartic_split. pose proof (quad_plus E). pose proof (quad_minus E). nra.
    - assert (Gf 0 = 0) as ->.
      { unfold Gf. replace (0 * 0 + p * 0 + G) with G by ring. replace (0 * 0 - p * 0 + G) with G by ring.
        replace ((2 * 0 + p) / q) with (p / q) by (f_equal; ring). replace ((2 * 0 - p) / q) with (- (p / q)) by (field; lra). rewrite atan_opp. ring. }
      unfold minus, plus, opp. cbn. ring.
  Qed.
  Lemma far X : 2 * p < X -> Rabs (Gf X - PI / (2 * G * q)) <= (2 / G) / X.
  Proof.
    intro H. pose proof (quad_plus X) as P. pose proof (quad_minus X) as Q.
    assert (L1 : 0 <= ln (X * X + p * X + G) - ln (X * X - p * X + G) <= 4 * p / X).
    { rewrite <- ln_div by assumption. assert (N : X * X / 2 <= X * X - p * X + G) by nra.
      assert (R1 : (X * X + p * X + G) / (X * X - p * X + G) = 1 + 2 * p * X / (X * X - p * X + G)) by (field; lra). rewrite R1.
      assert (0 <= 2 * p * X / (X * X - p * X + G)) by (apply Rmult_le_pos; [nra|apply Rlt_le, Rinv_0_lt_compat, Q]). split.
      - destruct (Req_dec (2 * p * X / (X * X - p * X + G)) 0) as [->|]; [rewrite Rplus_0_r, ln_1; lra|]. apply Rlt_le. rewrite <- ln_1. apply ln_increasing; lra.
      - eapply Rle_trans; [apply ln_le_pred; lra|]. replace (1 + 2 * p * X / (X * X - p * X + G) - 1) with (2 * p * X * / (X * X - p * X + G)) by (unfold Rdiv; ring).
        replace (4 * p / X) with (2 * p * X * / (X * X / 2)) by (field; lra). apply Rmult_le_compat_l; [nra|]. apply Rinv_le_contravar; [nra|assumption]. }
    assert (A1 : 0 <= PI / 2 - atan ((2 * X + p) / q) <= q / (2 * X)).
    { destruct (atan_far ((2 * X + p) / q)) as [A B]; [apply Rdiv_lt_0_compat; lra|]. split; [assumption|]. eapply Rle_trans; [exact B|].
      replace (/ ((2 * X + p) / q)) with (q * / (2 * X + p)) by (field; lra). apply Rmult_le_compat_l; [lra|]. apply Rinv_le_contravar; lra. }
    assert (A2 : 0 <= PI / 2 - atan ((2 * X - p) / q) <= q / X).
    { destruct (atan_far ((2 * X - p) / q)) as [A B]; [apply Rdiv_lt_0_compat; lra|]. split; [assumption|]. eapply Rle_trans; [exact B|].
      replace (/ ((2 * X - p) / q)) with (q * / (2 * X - p)) by (field; lra). apply Rmult_le_compat_l; [lra|]. apply Rinv_le_contravar; lra. }
    set (l := ln (X * X + p * X + G) - ln (X * X - p * X + G)) in *. set (a := PI / 2 - atan ((2 * X + p) / q)) in *. set (b := PI / 2 - atan ((2 * X - p) / q)) in *.
    assert (E : Gf X - PI / (2 * G * q) = / (4 * G * p) * l - / (2 * G * q) * (a + b)).
    { unfold Gf. fold l. unfold a, b. field. lra. }
    rewrite E. assert (0 < / (4 * G * p)) by (apply Rinv_0_lt_compat; nra). assert (0 < / (2 * G * q)) by (apply Rinv_0_lt_compat; nra).
    assert (B1 : 0 <= / (4 * G * p) * l <= 1 / G / X).
    { split; [apply Rmult_le_pos; lra|]. replace (1 / G / X) with (/ (4 * G * p) * (4 * p / X)) by (field; lra). apply Rmult_le_compat_l; lra. }
    assert (B2 : 0 <= / (2 * G * q) * (a + b) <= 1 / G / X).
    { split; [apply Rmult_le_pos; lra|]. apply Rle_trans with (/ (2 * G * q) * (q / (2 * X) + q / X)); [apply Rmult_le_compat_l; lra|].
      replace (/ (2 * G * q) * (q / (2 * X) + q / X)) with (3 / 4 * (1 / G / X)) by (field; lra). assert (0 < 1 / G / X) by (repeat apply Rdiv_lt_0_compat; lra). lra. }
    assert (0 < 1 / G / X) by (repeat apply Rdiv_lt_0_compat; lra). replace (2 / G / X) with (1 / G / X + 1 / G / X) by (field; lra). apply Rabs_le. lra.
  Qed.
End Quartic.

Lemma abs2_mult a b : abs2 (a * b)%C = abs2 a * abs2 b.
Proof. destruct a as [a a'], b as [b b']. unfold abs2. cbn. ring. Qed.
Lemma abs2_RtoC a : abs2 (RtoC a) = a * a. Proof. unfold abs2. cbn. ring. Qed.
Lemma abs2_0 z : abs2 z = 0 -> z = RtoC 0.
Proof. destruct z as [a b]. unfold abs2. cbn. intro H. assert (a = 0) by nra. assert (b = 0) by nra. subst. reflexivity. Qed.
Lemma abs2_pos z : z <> RtoC 0 -> 0 < abs2 z.
Proof. intro H. assert (0 <= abs2 z) by (unfold abs2; nra). destruct (Req_dec (abs2 z) 0) as [E|E]; [|lra]. exfalso. apply H. now apply abs2_0. Qed.
Lemma abs2_inv z : z <> RtoC 0 -> abs2 (/ z)%C = / abs2 z.
Proof.
  intro H. pose proof (abs2_pos z H). assert (abs2 (z * / z)%C = 1). { rewrite Cinv_r by assumption. rewrite abs2_RtoC. ring. }
  rewrite abs2_mult in H1. apply (Rmult_eq_reg_l (abs2 z)); [|lra]. rewrite H1. field. lra.
Qed.
Lemma abs2_div a b : b <> RtoC 0 -> abs2 (a / b)%C = abs2 a / abs2 b.
Proof. intro H. unfold Cdiv. rewrite abs2_mult, abs2_inv by assumption. reflexivity. Qed.
Definition den (x y : R) : C := (RtoC x - Ci * RtoC y)%C.
Lemma den_pair x y : den x y = (x, - y).
Proof. unfold den, Ci, RtoC, Cminus, Cplus, Copp, Cmult. cbn. f_equal; ring. Qed.
Lemma den_neq x y : x <> 0 \/ y <> 0 -> den x y <> RtoC 0.
Proof. rewrite den_pair. unfold RtoC. intros [H|H] E; injection E; intros; lra. Qed.
Lemma den_abs2 x y : abs2 (den x y) = x * x + y * y. Proof. rewrite den_pair. unfold abs2. cbn. ring. Qed.

Lemma kFactor_sq m w : 0 < m -> 0 < w -> let gamma := m * sqrt (m * m + w * w) in
  kFactor m w * kFactor m w = 2 * sqrt 2 / PI * m * w * gamma / sqrt (m * m + gamma) /\ 0 < kFactor m w.
Proof.
  intros M W gamma. assert (0 < m * m + w * w) by nra. assert (0 < gamma) by (apply Rmult_lt_0_compat; [assumption|now apply sqrt_lt_R0]).
  assert (P : 0 < 2 * sqrt 2 / PI * m * w * gamma / sqrt (m * m + gamma)).
  { apply Rdiv_lt_0_compat; [|apply sqrt_lt_R0; nra]. pose proof PI_RGT_0. pose proof (sqrt_lt_R0 2 ltac:(lra)). assert (0 < 2 * sqrt 2 / PI) by (apply Rdiv_lt_0_compat; lra).
    apply Rmult_lt_0_compat; [|assumption]. apply Rmult_lt_0_compat; [|assumption]. now apply Rmult_lt_0_compat. }
  unfold kFactor. fold gamma. split; [apply sqrt_sqrt; lra|now apply sqrt_lt_R0].
Qed.
Lemma sbw_abs2 m w E : 0 < m -> 0 < w -> let G := m * sqrt (m * m + w * w) in
  abs2 (SBW (E * E) m w) = kFactor m w * kFactor m w * / (E * E * (E * E) - 2 * (m * m) * (E * E) + G * G).
Proof.
  intros M W G. unfold SBW. change (RtoC (m * m - E * E) - Ci * RtoC (m * w))%C with (den (m * m - E * E) (m * w)).
  rewrite abs2_mult, abs2_div, !abs2_RtoC, den_abs2 by (apply den_neq; right; nra). unfold Rdiv. rewrite !Rmult_1_l. f_equal. f_equal.
  assert (G * G = m * m * (m * m + w * w)) as ->. { unfold G. transitivity (m * m * (sqrt (m * m + w * w) * sqrt (m * m + w * w))); [ring|]. rewrite sqrt_sqrt by nra. reflexivity. }
  ring.
Qed.
Lemma sbw_normalised m w : 0 < m -> 0 < w -> is_lim (mass_integral (fun s => SBW s m w) 0) p_infty 1.
Proof.
  intros M W. set (G := m * sqrt (m * m + w * w)). assert (S : m < sqrt (m * m + w * w)).
  { rewrite <- (sqrt_square m) at 1 by lra. apply sqrt_lt_1_alt. nra. }
  assert (HG : m * m < G) by (unfold G; nra). assert (P1 : 0 < 2 * (G + m * m)) by nra. assert (P2 : 0 < 2 * (G - m * m)) by lra.
  set (p := sqrt (2 * (G + m * m))). set (q := sqrt (2 * (G - m * m))).
  assert (Hp : 0 < p) by now apply sqrt_lt_R0. assert (Hq : 0 < q) by now apply sqrt_lt_R0. assert (0 < G) by nra.
  assert (Ep : p * p = 2 * (G + m * m)) by (apply sqrt_sqrt; lra). assert (Eq : q * q = 2 * (G - m * m)) by (apply sqrt_sqrt; lra).
  destruct (kFactor_sq m w M W) as [K KP]. fold G in K. set (k2 := kFactor m w * kFactor m w) in *.
  assert (N : k2 * (PI / (2 * G * q)) = 1).
  { rewrite K. assert (sqrt (m * m + G) = p / sqrt 2) as ->.
    { unfold p. rewrite sqrt_mult by lra. pose proof (sqrt_lt_R0 2 ltac:(lra)). rewrite (Rplus_comm (m * m)). field. lra. }
    pose proof (sqrt_lt_R0 2 ltac:(lra)) as R2. pose proof PI_RGT_0.
    assert (S2 : sqrt 2 * sqrt 2 = 2) by (apply sqrt_sqrt; lra).
    assert (PQ : p * q = 2 * (m * w)).
    { unfold p, q. rewrite <- sqrt_mult by lra. replace (2 * (G + m * m) * (2 * (G - m * m))) with (2 * (m * w) * (2 * (m * w))).
      - apply sqrt_square. nra.
      - assert (G * G = m * m * (m * m + w * w)). { unfold G. transitivity (m * m * (sqrt (m * m + w * w) * sqrt (m * m + w * w))); [ring|]. rewrite sqrt_sqrt by nra. reflexivity. }
        nra. }
    transitivity ((sqrt 2 * sqrt 2) * (m * w) / (p * q)); [field; repeat split; lra|]. rewrite S2, PQ. field. nra. }
  assert (k2 > 0) by (unfold k2; nra).
  apply squeeze with (c := k2 * (2 / G)) (X0 := 2 * p); [lra|]. intros X HX. unfold mass_integral.
  rewrite (RInt_ext _ (fun E => scal k2 (/ (E * E * (E * E) - 2 * (m * m) * (E * E) + G * G)))) by (intros E _; now rewrite sbw_abs2).
  rewrite (RInt_scal (V := R_CompleteNormedModule) (fun E => / (E * E * (E * E) - 2 * (m * m) * (E * E) + G * G))).
  - rewrite (quartic_integral (m * m) G p q) by assumption. rewrite <- N. unfold scal. cbn. unfold mult. cbn. rewrite <- Rmult_minus_distr_l, Rabs_mult.
    rewrite (Rabs_pos_eq k2) by lra. replace (k2 * (2 / G) / X) with (k2 * (2 / G / X)) by (unfold Rdiv; ring). apply Rmult_le_compat_l; [lra|]. apply (far (m * m) G p q); assumption.
  - apply (ex_RInt_continuous (V := R_CompleteNormedModule)). intros E _.
    apply (ex_derive_continuous (fun E => / (E * E * (E * E) - 2 * (m * m) * (E * E) + G * G))). auto_derive.
    replace (E * E * (E * E) + - (2 * (m * m) * (E * E)) + G * G) with (E * E * (E * E) - 2 * (m * m) * (E * E) + G * G) by ring.
    rewrite (quartic_split (m * m) G p) by assumption.
    pose proof (quad_plus (m * m) G p q Hq Ep Eq E). pose proof (quad_minus (m * m) G p q Hq Ep Eq E). nra.
Qed.
