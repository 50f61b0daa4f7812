(** C70: wigner_d is the matrix of a rotation. *)
From Coq Require Import Reals Lra List ZArith Lia.
From Verif.Wigner Require Import Spec.
From Verif.Rotations Require Import Model Spec Proofs.
Import ListNotations.
Local Open Scope R_scope.

(** For every spin, projection and angle the functions are the coefficients of the state turned by the angle, and nothing
    else is. *)
Theorem C70_rotation J M a : projection J M -> 0 <= a <= PI ->
  (forall N, projection J N -> exists v, wigner_d (cos a) J M N = Some v) /\
  (forall d, rotates J M a d <-> forall N, projection J N -> wigner_d (cos a) J M N = Some (d N)).
Proof. apply rotation. Qed.
Print Assumptions C70_rotation.

(** Turned states stay orthonormal: a sum over the helicities does not depend on the axis. *)
Theorem C70_orthonormal J M M' a : projection J M -> projection J M' -> 0 <= a <= PI ->
  sum_over (all_projections J) (fun N => value (wigner_d (cos a) J M N) * value (wigner_d (cos a) J M' N)) = if Z.eqb M M' then 1 else 0.
Proof. apply orthonormal_d. Qed.
Print Assumptions C70_orthonormal.

Theorem C70_compose J M N a b : projection J M -> projection J N -> 0 <= a -> 0 <= b -> a + b <= PI ->
  value (wigner_d (cos (a + b)) J M N) = sum_over (all_projections J) (fun K => value (wigner_d (cos a) J M K) * value (wigner_d (cos b) J K N)).
Proof. apply compose_d. Qed.
Print Assumptions C70_compose.

Theorem C70_identity J M N : projection J M -> projection J N -> wigner_d 1 J M N = Some (if Z.eqb M N then 1 else 0).
Proof. apply identity_d. Qed.
Print Assumptions C70_identity.

Theorem C70_transpose J M N a : projection J M -> projection J N -> 0 <= a <= PI -> value (wigner_d (cos a) J N M) = phase (M - N) * value (wigner_d (cos a) J M N).
Proof. apply transpose_d. Qed.
Print Assumptions C70_transpose.

(** Projections that the spin does not have give zero. *)
Theorem C70_outside J M N cb : (0 <= J)%Z -> Z.even (J - M) = true -> Z.even (J - N) = true -> ~ (projection J M /\ projection J N) -> -1 <= cb <= 1 -> wigner_d cb J M N = Some 0.
Proof. apply outside. Qed.
Print Assumptions C70_outside.

(** d^(1/2)_(1/2,-1/2) = - sin(a/2); d^1_(1,-1) at a = pi/2 is 1/2 *)
Lemma ups_spin1 : projection 2 2 /\ projection 2 (-2) /\ projection 1 1 /\ projection 1 (-1).
Proof. repeat split; (lia || reflexivity). Qed.
Lemma states x y : state 1 1 x y = x /\ state 1 (-1) x y = y /\ state 2 2 x y = x * x / sqrt 2 /\ state 2 0 x y = x * y /\ state 2 (-2) x y = y * y / sqrt 2.
Proof.
  unfold state. change (ups 1 1) with 1%nat. change (ups 1 (-1)) with 0%nat. change (ups 1 (- (1))) with 0%nat. change (ups 1 (- -1)) with 1%nat.
  change (ups 2 2) with 2%nat. change (ups 2 0) with 1%nat. change (ups 2 (-2)) with 0%nat. change (ups 2 (- (2))) with 0%nat. change (ups 2 (- (0))) with 1%nat. change (ups 2 (- -2)) with 2%nat.
  cbn [fact pow INR Nat.mul Nat.add]. rewrite !Rmult_1_r, !Rmult_1_l, sqrt_1. replace (1 + 1) with 2 by ring. repeat split; unfold Rdiv; try rewrite Rinv_1; ring.
Qed.
Example C70_example_spinor a : 0 <= a <= PI -> wigner_d (cos a) 1 1 (-1) = Some (- sin (a / 2)).
Proof.
  intro H. destruct ups_spin1 as (_ & _ & P & P'). destruct (C70_rotation 1 1 a P H) as [_ R].
  apply (R (fun N => if Z.eqb N 1 then cos (a / 2) else - sin (a / 2))); [|exact P']. intros x y. destruct (states (fst (turn a x y)) (snd (turn a x y))) as (-> & _). change (all_projections 1) with [(-1)%Z; 1%Z].
  cbn [sum_over Z.eqb Pos.eqb]. destruct (states x y) as (-> & -> & _). cbn. ring.
Qed.
Example C70_example_vector : wigner_d (cos (PI / 2)) 2 2 (-2) = Some (1 / 2).
Proof.
  destruct ups_spin1 as (P & P' & _ & _). assert (H : 0 <= PI / 2 <= PI) by (pose proof PI_RGT_0; lra). destruct (C70_rotation 2 2 (PI / 2) P H) as [_ R].
  apply (R (fun N => if Z.eqb N 0 then - (1 / sqrt 2) else 1 / 2)); [|exact P']. intros x y. destruct (states (fst (turn (PI / 2) x y)) (snd (turn (PI / 2) x y))) as (_ & _ & -> & _). change (all_projections 2) with [(-2)%Z; 0%Z; 2%Z].
  cbn [sum_over Z.eqb Pos.eqb]. destruct (states x y) as (_ & _ & -> & -> & ->). cbn [turn fst snd]. replace (PI / 2 / 2) with (PI / 4) by field. rewrite cos_PI4, sin_PI4.
  pose proof (sqrt_def 2 ltac:(lra)) as S2. pose proof (sqrt_lt_R0 2 ltac:(lra)) as S0. set (t := sqrt 2) in *. clearbody t. replace (1 / t * x - 1 / t * y) with (1 / t * (x - y)) by ring.
  replace (1 / t * (x - y) * (1 / t * (x - y)) / t) with (1 / (t * t) * ((x - y) * (x - y)) / t) by (field; lra). rewrite S2. field. lra.
Qed.
Example C70_example_outside : wigner_d (1 / 3) 2 4 0 = Some 0.
Proof. apply C70_outside; try reflexivity; try lra; try lia. intros [[B _] _]. lia. Qed.
