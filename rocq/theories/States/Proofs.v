From Verif.Common Require Import Prelude.
From Coq Require Import Reals ZArith Lra FunctionalExtensionality.
From Coquelicot Require Import Hierarchy Complex.
From Verif.Vertex Require Import Model Spec Algebra.
From Verif.External Require Import Model Spec Proofs Spinors.
From Verif.States Require Import Model Spec.
Local Open Scope R_scope.

Lemma dot_ip a b : dot a b = ip a b.
Proof. unfold dot, ip, sum4, sgn. ring. Qed.
Lemma mv_conj A v : (forall i j, Cconj (A i j) = A i j) -> (fun i => Cconj (mv A v i)) = mv A (cbar v).
Proof. intro H. apply functional_extensionality. intro i. unfold mv, sum4, cbar. push. now rewrite !H. Qed.
Lemma conj2 q : Cconj (Cconj q) = q. Proof. destruct q; unfold Cconj; cbn; f_equal; ring. Qed.
(** The overlap in the laboratory is that in the frame. *)
Lemma overlap_frame A B p q e v : moves A B p q -> dot (fun i => Cconj (mv B e i)) v = ip (cbar e) (mv A v).
Proof.
  intros (R & L & I & _). rewrite dot_ip, <- L. f_equal. pose proof (mv_conj A (mv B e) R) as K. rewrite (I e) in K. symmetry. exact K.
Qed.
Lemma conj_A A B p q v w : moves A B p q -> ip (cbar (mv A v)) (mv A w) = ip (cbar v) w.
Proof. intros (R & L & _). unfold cbar at 1. rewrite (mv_conj A v R). apply L. Qed.
Lemma momentum_A A B p q v : moves A B p q -> ip (P4 p) v = RtoC 0 -> ip q (mv A v) = RtoC 0.
Proof. intros (_ & L & _ & <-) H. now rewrite L. Qed.

Lemma three_states v w : v I3 = RtoC 0 -> w I3 = RtoC 0 -> exists e f g, basisVector 1 = Some e /\ basisVector 0 = Some f /\ basisVector (-1) = Some g /\
  (Cconj (ip (cbar e) v) * ip (cbar e) w + (Cconj (ip (cbar f) v) * ip (cbar f) w + (Cconj (ip (cbar g) v) * ip (cbar g) w + RtoC 0)) = - ip (cbar v) w)%C.
Proof.
  intros V W. do 3 eexists. do 3 (split; [reflexivity|]). unfold ip, cbar, four. push. rewrite V, W. root2. pose proof ii as Hi. push. rewrite ?conj2.
  assert (H1 : (RtoC r * RtoC r + RtoC r * RtoC r = RtoC 1)%C) by (rewrite <- RtoC_mult, <- RtoC_plus; f_equal; lra).
  apply (lin _ _ _ _ (Cconj (v I0) * w I0 + Cconj (v I1) * w I1)%C H1). ring [Hi].
Qed.
Lemma two_states v w : v I3 = v I2 -> w I3 = w I2 -> exists e g, basisVector 1 = Some e /\ basisVector (-1) = Some g /\
  (Cconj (ip (cbar e) v) * ip (cbar e) w + (Cconj (ip (cbar g) v) * ip (cbar g) w + RtoC 0) = - ip (cbar v) w)%C.
Proof.
  intros V W. do 2 eexists. do 2 (split; [reflexivity|]). unfold ip, cbar, four. push. rewrite V, W. root2. pose proof ii as Hi. push. rewrite ?conj2.
  assert (H1 : (RtoC r * RtoC r + RtoC r * RtoC r = RtoC 1)%C) by (rewrite <- RtoC_mult, <- RtoC_plus; f_equal; lra).
  apply (lin _ _ _ _ (Cconj (v I0) * w I0 + Cconj (v I1) * w I1)%C H1). ring [Hi].
Qed.
Lemma rest_time m v : m <> 0 -> ip (at_rest_ m) v = RtoC 0 -> v I3 = RtoC 0.
Proof.
  intros M H. unfold ip, at_rest_, four in H. assert (K : (RtoC m * v I3 = RtoC 0)%C) by (rewrite <- H; ring).
  assert (N : RtoC m <> RtoC 0) by (intro E; apply M; now injection E). rewrite <- (Cmult_1_l (v I3)), <- (Cinv_l (RtoC m)) by exact N. rewrite <- Cmult_assoc, K. ring.
Qed.
Lemma ahead_time E v : E <> 0 -> ip (ahead E) v = RtoC 0 -> v I3 = v I2.
Proof.
  intros M H. unfold ip, ahead, four in H. assert (K : (RtoC E * (v I3 - v I2) = RtoC 0)%C) by (rewrite <- H; ring).
  assert (N : RtoC E <> RtoC 0) by (intro F; apply M; now injection F). assert (Z : (v I3 - v I2 = RtoC 0)%C).
  { rewrite <- (Cmult_1_l (v I3 - v I2)%C), <- (Cinv_l (RtoC E)) by exact N. rewrite <- Cmult_assoc, K. ring. }
  replace (v I3) with (v I3 - v I2 + v I2)%C by ring. rewrite Z. ring.
Qed.
Lemma bar_frame e A B p m u v : moves_spinors e A B p m -> sum4 (fun a => (Bar (mv B u) a * v a)%C) = pairing u (mv A v).
Proof. intros (L & I & _). change (pairing (mv B u) v = pairing u (mv A v)). now rewrite <- L, I. Qed.
(** Solutions at rest have two components. *)
Lemma rest_spinors e m v : (e = 1 \/ e = -1)%Z -> m <> 0 -> dirac (RtoC (IZR e)) (at_rest_ m) m v ->
  if (e =? 1)%Z then v I2 = RtoC 0 /\ v I3 = RtoC 0 else v I0 = RtoC 0 /\ v I1 = RtoC 0.
Proof.
  intros E M D. assert (Z : forall x, (RtoC m * x = - (RtoC m * x))%C -> x = RtoC 0).
  { intros [x y] H. injection H as H1 H2. unfold RtoC. f_equal; nra. }
  assert (K : forall a, mv (slash (at_rest_ m)) v a = vsc (RtoC (IZR e) * RtoC m)%C v a) by (intro a; now rewrite D).
  assert (S : forall a, mv (slash (at_rest_ m)) v a = (RtoC m * (match a with I0 | I1 => v a | _ => - v a end))%C).
  { intro a. unfold mv, slash, sum4, sgn, Gamma4Vec, Gamma, square, at_rest_, four. destruct a; cbn [nth]; ring. }
  destruct E as [-> | ->]; cbn [Z.eqb Pos.eqb]; split; apply Z.
  - pose proof (K I2) as H. rewrite S in H. unfold vsc in H. replace (- (RtoC m * v I2))%C with (RtoC m * - v I2)%C by ring. rewrite H. ring.
  - pose proof (K I3) as H. rewrite S in H. unfold vsc in H. replace (- (RtoC m * v I3))%C with (RtoC m * - v I3)%C by ring. rewrite H. ring.
  - pose proof (K I0) as H. rewrite S in H. unfold vsc in H. etransitivity; [exact H|]. rewrite RtoC_m1. ring.
  - pose proof (K I1) as H. rewrite S in H. unfold vsc in H. etransitivity; [exact H|]. rewrite RtoC_m1. ring.
Qed.
Lemma pairing_diag u v : pairing u v = (Cconj (u I0) * v I0 + Cconj (u I1) * v I1 - Cconj (u I2) * v I2 - Cconj (u I3) * v I3)%C.
Proof. unfold pairing, Bar, sum4, Gamma, square; cbn [nth]. ring. Qed.
(** A left inverse of two rows is a right inverse. *)
Lemma two_by_two (a b c d p q r s : C) : (p * a + q * c = RtoC 1 -> p * b + q * d = RtoC 0 -> r * a + s * c = RtoC 0 -> r * b + s * d = RtoC 1 ->
  a * p + b * r = RtoC 1 /\ a * q + b * s = RtoC 0 /\ c * p + d * r = RtoC 0 /\ c * q + d * s = RtoC 1)%C.
Proof.
  intros H1 H2 H3 H4. set (x := (p * s - q * r)%C). set (y := (a * d - b * c)%C).
  assert (XY : (x * y = RtoC 1)%C).
  { transitivity ((p * a + q * c) * (r * b + s * d) - (p * b + q * d) * (r * a + s * c))%C; [unfold x, y; ring|]. rewrite H1, H2, H3, H4. ring. }
  assert (Ea : (x * a = s)%C). { transitivity (s * (p * a + q * c) - q * (r * a + s * c))%C; [unfold x; ring|]. rewrite H1, H3. ring. }
  assert (Ec : (x * c = - r)%C). { transitivity (p * (r * a + s * c) - r * (p * a + q * c))%C; [unfold x; ring|]. rewrite H1, H3. ring. }
  assert (Eb : (x * b = - q)%C). { transitivity (s * (p * b + q * d) - q * (r * b + s * d))%C; [unfold x; ring|]. rewrite H2, H4. ring. }
  assert (Ed : (x * d = p)%C). { transitivity (p * (r * b + s * d) - r * (p * b + q * d))%C; [unfold x; ring|]. rewrite H2, H4. ring. }
  assert (G : forall u v, (x * u = x * v -> u = v)%C).
  { intros u v H. transitivity (x * y * u)%C; [rewrite XY; ring|]. transitivity (y * (x * u))%C; [ring|]. rewrite H. transitivity (x * y * v)%C; [ring|rewrite XY; ring]. }
  repeat split; apply G.
  - transitivity (x * a * p + x * b * r)%C; [ring|]. rewrite Ea, Eb. unfold x. ring.
  - transitivity (x * a * q + x * b * s)%C; [ring|]. rewrite Ea, Eb. ring.
  - transitivity (x * c * p + x * d * r)%C; [ring|]. rewrite Ec, Ed. ring.
  - transitivity (x * c * q + x * d * s)%C; [ring|]. rewrite Ec, Ed. unfold x. ring.
Qed.
