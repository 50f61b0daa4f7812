(** C79: the orbital tensors and the projectors of spin 1 and 2. *)
From Verif.Common Require Import Prelude.
From Coq Require Import Reals Lra Field FunctionalExtensionality.
From Coquelicot Require Import Hierarchy Complex.
From Verif.Vertex Require Import Model Spec Algebra OrbitalProofs BosonProofs.
Local Open Scope C_scope.

(** Four real components. *)
Definition v4 (x y z e : R) : vec := fun i => match i with I0 => RtoC x | I1 => RtoC y | I2 => RtoC z | I3 => RtoC e end.
Lemma ip_v4 a b c d a' b' c' d' : ip (v4 a b c d) (v4 a' b' c' d') = RtoC (d * d' - a * a' - b * b' - c * c').
Proof. unfold ip, v4. now rewrite !RtoC_minus, !RtoC_mult. Qed.

(** The orbital P wave is the part of the momentum difference across P: it is transverse, differs from it by a multiple of
    P, does not see the component along P, and keeps what is transverse already. *)
Theorem C79_pwave (P q : vec) : ip P P <> 0 ->
  transverse P (Orbital_PWave P q) /\
  (exists x, q = vadd (Orbital_PWave P q) (vsc x P)) /\
  (forall x, Orbital_PWave P (vadd q (vsc x P)) = Orbital_PWave P q) /\
  (transverse P q -> Orbital_PWave P q = q) /\
  ip (Orbital_PWave P q) (Orbital_PWave P q) = ip q q - ip P q * ip P q / ip P P.
Proof.
  intro N. split; [now apply pwave_trans|]. split; [|split; [|split; [now apply pwave_id|]]].
  - exists (ip P q / ip P P). rewrite pwave_eq. apply vec_ext. intro i. unfold vadd, vsc. field. exact N.
  - intro x. rewrite pwave_add, pwave_sc, pwave_P by exact N. apply vec_ext. intro i. unfold vadd, vsc, zero. ring.
  - rewrite pwave_adj, pwave_idem by exact N. rewrite pwave_eq, ip_add_r, ip_sc_r, (ip_sym q P). field. exact N.
Qed.
Print Assumptions C79_pwave.

(** In the rest frame of P it is the momentum difference without its energy, and the D wave is the traceless tensor
    q_i q_j - delta_ij q^2 / 3 in the three directions of space. *)
Theorem C79_rest (M a b c e : R) : M <> 0%R ->
  let P := v4 0 0 0 M in let q := v4 a b c e in
  Orbital_PWave P q = v4 a b c 0 /\
  (forall i j, i <> I3 -> j <> I3 ->
     Orbital_DWave P q i j = q i * q j - (if match i, j with I0, I0 | I1, I1 | I2, I2 => true | _, _ => false end
                                          then RtoC ((a * a + b * b + c * c) / 3) else 0)) /\
  (forall i, Orbital_DWave P q i I3 = 0 /\ Orbital_DWave P q I3 i = 0).
Proof.
  intros H P q. assert (N : RtoC M <> 0) by (intro E; apply RtoC_inj in E; contradiction).
  assert (N2 : ip P P <> 0).
  { unfold P. rewrite ip_v4. intro E. apply RtoC_inj in E. assert (M * M = 0)%R by lra. apply Rmult_integral in H0. tauto. }
  assert (W : Orbital_PWave P q = v4 a b c 0).
  { unfold Orbital_PWave. apply vec_ext. intro i. rewrite !dot_ip. unfold P, q. rewrite !ip_v4.
    replace (M * M - 0 * 0 - 0 * 0 - 0 * 0)%R with (M * M)%R by ring. replace (M * e - 0 * a - 0 * b - 0 * c)%R with (M * e)%R by ring.
    rewrite !RtoC_mult. destruct i; cbn [v4]; try ring. field. exact N. }
  assert (D : forall i, Orbital_DWave P q i I3 = 0).
  { intro i. pose proof (proj2 (D_trans P N2 q)) as T. apply (f_equal (fun f => f i)) in T. unfold on_right, zero, ip, P in T. cbn [v4] in T.
    assert (E : Orbital_DWave (v4 0 0 0 M) q i I3 * M = 0) by (rewrite <- T; ring).
    fold P in E. destruct (Ceq_dec (Orbital_DWave P q i I3) 0) as [Z|Z]; [exact Z|]. now destruct (Cmult_neq_0 _ _ Z N). }
  split; [exact W|]. split.
  - intros i j Hi Hj. unfold Orbital_DWave. rewrite W, dot_ip, ip_v4. unfold Spin1Projector, Metric4x4.
    replace (0 * 0 - a * a - b * b - c * c)%R with (- (a * a + b * b + c * c))%R by ring. rewrite RtoC_div by lra. rewrite RtoC_opp.
    unfold P, q. destruct i, j; try congruence; cbn [v4]; unfold Cdiv; ring.
  - intro i. split; [apply D|]. rewrite D_sym. apply D.
Qed.
Print Assumptions C79_rest.

(** The projector of spin 1 annihilates P, keeps every transverse vector, and has three states. *)
Theorem C79_spin1 (P : vec) : ip P P <> 0 ->
  symmetric (Spin1Projector P) /\ transverse2 P (Spin1Projector P) /\ trace (Spin1Projector P) = 3 /\
  (forall v, transverse P (on_right (Spin1Projector P) v)) /\
  (forall v, transverse P v -> on_right (Spin1Projector P) v = v).
Proof.
  intro N. split; [exact (S_sym P)|]. split; [|split; [now apply trace_S|split]].
  - split; rewrite ?S_left, ?S_right; now apply pwave_P.
  - intro v. rewrite S_right. now apply pwave_trans.
  - intros v H. rewrite S_right. now apply pwave_id.
Qed.
Print Assumptions C79_spin1.

(** The projector of spin 2 makes a state of spin 2 of every tensor and keeps every such state; the orbital D wave is what
    it makes of the product of the momentum difference with itself. *)
Theorem C79_spin2 (P : vec) : ip P P <> 0 ->
  (forall T, spin2_state P (contract2 (Spin2Projector P) T)) /\
  (forall T, spin2_state P T -> contract2 (Spin2Projector P) T = T) /\
  (forall q, spin2_state P (Orbital_DWave P q) /\
     Orbital_DWave P q = contract2 (Spin2Projector P) (fun i j => q i * q j) /\
     (forall x, Orbital_DWave P (vadd q (vsc x P)) = Orbital_DWave P q)).
Proof.
  intro N. split; [intro T; now apply project2_state|]. split; [intros T H; now apply project2_id|]. intro q. split; [|split].
  - split; [intros i j; apply D_sym|]. split; [now apply D_trans|now apply trace_D].
  - now apply D_project.
  - intro x. apply ten_ext. intros i j. unfold Orbital_DWave. now rewrite (proj1 (proj2 (proj2 (C79_pwave P q N))) x).
Qed.
Print Assumptions C79_spin2.

(** All of them turn with the frame. *)
Theorem C79_covariant (A B : ten) (s : C) : lorentz A B s -> forall P q,
  Orbital_PWave (app A P) (app A q) = app A (Orbital_PWave P q) /\
  Orbital_DWave (app A P) (app A q) = tapp A (Orbital_DWave P q) /\
  Spin1Projector (app A P) = tapp A (Spin1Projector P) /\
  (forall T, contract2 (Spin2Projector (app A P)) (tapp A T) = tapp A (contract2 (Spin2Projector P) T)).
Proof.
  intros L P q. split; [now apply (L_pwave A B s)|]. split; [now apply (L_D A B s)|]. split; [now apply (L_S A B s)|].
  intro T. now apply (L_project2 A B s).
Qed.
Print Assumptions C79_covariant.

(** A moving particle, and a boost along z as an instance of a Lorentz map. *)
Definition boost34 : ten := fun i j => match i, j with
  | I0, I0 | I1, I1 => 1 | I2, I2 | I3, I3 => RtoC (5/4) | I2, I3 | I3, I2 => RtoC (3/4) | _, _ => 0 end.
Definition boost34' : ten := fun i j => match i, j with
  | I0, I0 | I1, I1 => 1 | I2, I2 | I3, I3 => RtoC (5/4) | I2, I3 | I3, I2 => RtoC (-(3/4)) | _, _ => 0 end.
Lemma quarters : RtoC (5/4) * RtoC (5/4) = 1 + RtoC (3/4) * RtoC (3/4). Proof. rewrite <- !RtoC_mult, <- RtoC_plus. f_equal. lra. Qed.
Lemma boost34_lorentz : lorentz boost34 boost34' 1.
Proof.
  repeat split; intros.
  - unfold ip, app, boost34. set (u := RtoC (5/4)). set (w := RtoC (3/4)). pose proof quarters as K. fold u w in K.
    transitivity ((u * u - w * w) * (a I3 * b I3 - a I2 * b I2) - a I0 * b I0 - a I1 * b I1); [ring|]. rewrite K. ring.
  - apply vec_ext. intro i. unfold app, boost34, boost34'. rewrite RtoC_opp. set (u := RtoC (5/4)). set (w := RtoC (3/4)).
    pose proof quarters as K. fold u w in K. destruct i; try ring.
    + transitivity ((u * u - w * w) * v I2); [ring|]. rewrite K. ring.
    + transitivity ((u * u - w * w) * v I3); [ring|]. rewrite K. ring.
  - unfold volume, det3, app, boost34. set (u := RtoC (5/4)). set (w := RtoC (3/4)). pose proof quarters as K. fold u w in K.
    transitivity ((u * u - w * w) * volume a b c d); [unfold volume, det3; ring|]. rewrite K. unfold volume, det3. ring.
Qed.
Example C79_ex : lorentz boost34 boost34' 1 /\ ip (v4 1 2 2 5) (v4 1 2 2 5) = 16 /\ ip (v4 1 2 2 5) (v4 1 2 2 5) <> 0 /\
  Orbital_PWave (v4 1 2 2 5) (v4 0 0 8 0) = v4 1 2 10 5 /\ spin2_state (v4 0 0 0 1) (fun i j => match i, j with I0, I0 => 1 | I1, I1 => -(1) | _, _ => 0 end).
Proof.
  split; [exact boost34_lorentz|]. assert (E : ip (v4 1 2 2 5) (v4 1 2 2 5) = 16) by (rewrite ip_v4; f_equal; ring).
  split; [exact E|]. split; [rewrite E; intro H; apply RtoC_inj in H; lra|]. split.
  - apply vec_ext. intro i. unfold Orbital_PWave. rewrite !dot_ip, !ip_v4. rewrite <- RtoC_div by lra. destruct i; cbn [v4];
    rewrite <- !RtoC_mult, <- RtoC_minus; f_equal; lra.
  - split; [intros [] []; reflexivity|]. split; [split; apply vec_ext; intros []; unfold on_left, on_right, ip, zero; cbn [v4]; ring|]. unfold trace. ring.
Qed.
