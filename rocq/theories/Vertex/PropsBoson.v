(** C80: the vertices of bosons. *)
From Verif.Common Require Import Prelude.
From Coq Require Import Reals Lra Field FunctionalExtensionality.
From Coquelicot Require Import Hierarchy Complex.
From Verif.Vertex Require Import Model Spec Algebra OrbitalProofs BosonProofs Maps PropsOrbital.
Local Open Scope C_scope.

(** Whatever the tensors of the products are, the tensor of a decaying vector has no component along its momentum, and
    that of a decaying tensor is a state of spin 2. *)
Theorem C80_spin (P Q : vec) : ip P P <> 0 ->
  (forall V1 V2, transverse P (V_SS_P P Q V1 V2) /\ spin2_state P (T_SS_D P Q V1 V2)) /\
  (forall V1 V2, transverse P (V_VS_P P Q V1 V2) /\ transverse P (V_VS_S P Q V1 V2) /\ transverse P (V_VS_D P Q V1 V2) /\
     spin2_state P (T_VS_D P Q V1 V2) /\ spin2_state P (T_VS_P P Q V1 V2)) /\
  (forall V1 V2, transverse P (V_VV_P P Q V1 V2) /\ transverse P (V_VV_P1 P Q V1 V2) /\ transverse P (V_VV_P2 P Q V1 V2) /\
     transverse P (V_VV_S P Q V1 V2)) /\
  (forall V1 V2, transverse P (V_TS_P P Q V1 V2) /\ transverse P (V_TS_D P Q V1 V2) /\
     (symmetric V1 -> spin2_state P (T_TS_S P Q V1 V2))).
Proof.
  intro N. repeat split; intros.
  all: try (apply T_SS_D_state || apply T_VS_D_state || apply T_VS_P_state || apply T_TS_S_state); try assumption.
  - rewrite V_SS_P_eq. apply sc_trans. now apply pwave_trans.
  - rewrite V_VS_P_eq. apply sc_trans, eps3_self3.
  - rewrite V_VS_S_eq. apply sc_trans. now apply pwave_trans.
  - rewrite V_VS_D_eq. apply sc_trans. now apply pwave_trans.
  - rewrite V_VV_P_eq. apply sc_trans. now apply pwave_trans.
  - rewrite V_VV_P1_eq. apply sc_trans, eps3_self1.
  - now apply V_VV_P2_trans.
  - rewrite V_VV_S_eq. now apply pwave_trans.
  - rewrite V_TS_P_eq. apply sc_trans. now apply pwave_trans.
  - rewrite V_TS_D_eq. apply eps3_self1.
Qed.
Print Assumptions C80_spin.

(** Every vertex turns with the frame: a Lorentz map of all arguments changes numbers not at all, vectors and tensors by
    that map; the vertices with one antisymmetric tensor are multiplied by the sign of the map, which is -1 for the
    reflection of space. *)
Theorem C80_covariant (A B : ten) (s : C) : lorentz A B s -> forall P Q,
  let X := app A in let X2 := tapp A in
  (forall V1 V2,
     V_SS_P (X P) (X Q) V1 V2 = X (V_SS_P P Q V1 V2) /\ T_SS_D (X P) (X Q) V1 V2 = X2 (T_SS_D P Q V1 V2)) /\
  (forall V1 V2,
     S_VS_P (X P) (X Q) (X V1) V2 = S_VS_P P Q V1 V2 /\
     V_VS_P (X P) (X Q) (X V1) V2 = vsc s (X (V_VS_P P Q V1 V2)) /\
     V_VS_S (X P) (X Q) (X V1) V2 = X (V_VS_S P Q V1 V2) /\
     V_VS_D (X P) (X Q) (X V1) V2 = X (V_VS_D P Q V1 V2) /\
     T_VS_D (X P) (X Q) (X V1) V2 = tsc s (X2 (T_VS_D P Q V1 V2)) /\
     T_VS_P (X P) (X Q) (X V1) V2 = X2 (T_VS_P P Q V1 V2)) /\
  (forall V1 V2,
     S_VV_S (X P) (X Q) (X V1) (X V2) = S_VV_S P Q V1 V2 /\
     S_VV_S1 (X P) (X Q) (X V1) (X V2) = S_VV_S1 P Q V1 V2 /\
     S_VV_D (X P) (X Q) (X V1) (X V2) = S_VV_D P Q V1 V2 /\
     S_VV_P (X P) (X Q) (X V1) (X V2) = s * S_VV_P P Q V1 V2 /\
     V_VV_P (X P) (X Q) (X V1) (X V2) = X (V_VV_P P Q V1 V2) /\
     V_VV_P1 (X P) (X Q) (X V1) (X V2) = vsc (s * s) (X (V_VV_P1 P Q V1 V2)) /\
     V_VV_P2 (X P) (X Q) (X V1) (X V2) = X (V_VV_P2 P Q V1 V2) /\
     V_VV_S (X P) (X Q) (X V1) (X V2) = vsc s (X (V_VV_S P Q V1 V2))) /\
  (forall V1 V2,
     S_TS_D (X P) (X Q) (X2 V1) V2 = S_TS_D P Q V1 V2 /\
     V_TS_P (X P) (X Q) (X2 V1) V2 = X (V_TS_P P Q V1 V2) /\
     V_TS_D (X P) (X Q) (X2 V1) V2 = vsc s (X (V_TS_D P Q V1 V2)) /\
     T_TS_S (X P) (X Q) (X2 V1) V2 = X2 (T_TS_S P Q V1 V2)) /\
  (forall V1 V2,
     S_TV_P (X P) (X Q) (X2 V1) (X V2) = S_TV_P P Q V1 V2 /\
     S_TV_D (X P) (X Q) (X2 V1) (X V2) = s * S_TV_D P Q V1 V2) /\
  (forall V1 V2, S_TT_S (X P) (X Q) (X2 V1) (X2 V2) = S_TT_S P Q V1 V2) /\
  (forall p1 p2 p3, getSpinFactorNBody1 (X p1) (X p2) (X p3) = vsc s (X (getSpinFactorNBody1 p1 p2 p3))).
Proof.
  intros L P Q. cbv zeta.
  pose proof (L_pwave A B s L) as Lp. pose proof (L_ip A B s L) as Li. pose proof (L_D A B s L) as LD.
  pose proof (L_right A B s L) as Lr. pose proof (L_left A B s L) as Ll. pose proof (L_eps3 A B s L) as Le.
  pose proof (L_vol A B s L) as Lv. pose proof (L_S A B s L) as LS. pose proof (L_both A B s L) as Lb.
  pose proof (L_pair2 A B s L) as L2. pose proof (L_prod A B s L) as Lm.
  repeat split; intros.
  - now rewrite !V_SS_P_eq, Lp, app_sc.
  - now rewrite !T_SS_D_eq, LD, tapp_sc.
  - now rewrite !S_VS_P_eq, Lp, Li.
  - rewrite !V_VS_P_eq, Lp, Le, app_sc. apply vec_ext. intro. unfold vsc. ring.
  - now rewrite !V_VS_S_eq, Lp, app_sc.
  - now rewrite !V_VS_D_eq, LD, Lr, Lp, app_sc.
  - rewrite !T_VS_D_eq, Lp, Le, tapp_sc, tapp_add, !tapp_outer. apply ten_ext. intros. unfold tsc, tadd, vsc. ring.
  - now rewrite !T_VS_P_eq, !Lp, Li, LS, tapp_sc, tapp_add, !tapp_sc, tapp_add, !tapp_outer.
  - now rewrite !S_VV_S_eq, Li.
  - now rewrite !S_VV_S1_eq, Lp, Li.
  - now rewrite !S_VV_D_eq, LD, Lr, Li.
  - rewrite !S_VV_P_eq, Lp, Lv. ring.
  - now rewrite !V_VV_P_eq, Lp, Li, app_sc.
  - rewrite !V_VV_P1_eq, Le, pwave_sc, !Lp, app_sc. rewrite <- (app_sc A s), Le. apply vec_ext. intro. unfold vsc.
    replace (eps3 P (Orbital_PWave P Q) (fun i => s * Orbital_PWave P (eps3 P V1 V2) i)) with (vsc s (eps3 P (Orbital_PWave P Q) (Orbital_PWave P (eps3 P V1 V2)))).
    + rewrite app_sc. unfold vsc. ring.
    + apply vec_ext. intro j. unfold vsc, eps3, sum4. ring.
  - rewrite !V_VV_P2_eq, Lp, <- tapp_outer, (L_project2 A B s L), Ll. reflexivity.
  - now rewrite !V_VV_S_eq, Le, pwave_sc, Lp.
  - now rewrite !S_TS_D_eq, LD, L2.
  - now rewrite !V_TS_P_eq, Lp, Lr, Lp, app_sc.
  - rewrite !V_TS_D_eq, Lp, <- app_sc, Lr, Le. reflexivity.
  - now rewrite !T_TS_S_eq, Lb, LS, L2, tapp_sc, tapp_add, tapp_sc.
  - now rewrite !S_TV_P_eq, Lp, Lr, Li.
  - rewrite !S_TV_D_eq, LD, Lm, (L_eps2_first A B s L).
    replace (pair2 (tapp A (prod2 V1 (Orbital_DWave P Q))) (tsc s (tapp A (eps2_first P V2)))) with
      (s * pair2 (tapp A (prod2 V1 (Orbital_DWave P Q))) (tapp A (eps2_first P V2))) by (unfold pair2, tsc, ip; ring).
    now rewrite L2.
  - unfold S_TT_S. now rewrite !dot2_eq, L2.
  - apply Le.
Qed.
Print Assumptions C80_covariant.

(** The amplitude of two vectors does not depend on which is called the first, up to the sign of the exchange. *)
Theorem C80_exchange (P Q V1 V2 : vec) :
  let Q' := vsc (-(1)) Q in
  S_VV_S P Q' V2 V1 = S_VV_S P Q V1 V2 /\ S_VV_S1 P Q' V2 V1 = S_VV_S1 P Q V1 V2 /\
  S_VV_D P Q' V2 V1 = S_VV_D P Q V1 V2 /\ S_VV_P P Q' V2 V1 = S_VV_P P Q V1 V2 /\
  V_VV_P P Q' V2 V1 = vsc (-(1)) (V_VV_P P Q V1 V2) /\ V_VV_S P Q' V2 V1 = vsc (-(1)) (V_VV_S P Q V1 V2) /\
  V_VV_P1 P Q' V2 V1 = V_VV_P1 P Q V1 V2 /\ V_VV_P2 P Q' V2 V1 = vsc (-(1)) (V_VV_P2 P Q V1 V2).
Proof.
  cbv zeta. assert (E : forall a b c, eps3 a b c = vsc (-(1)) (eps3 a c b)).
  { intros. apply ip_inj. intro v. rewrite ip_sc_r, !eps3_ip. unfold volume, det3. ring. }
  assert (M : vsc (-(1)) (vsc (-(1)) V1) = V1) by (apply vec_ext; intro; unfold vsc; ring).
  assert (Es : forall a b c x, eps3 a (vsc x b) c = vsc x (eps3 a b c)).
  { intros. apply ip_inj. intro v. rewrite ip_sc_r, !eps3_ip. unfold volume, det3, vsc. ring. }
  assert (Et : forall a b c x, eps3 a b (vsc x c) = vsc x (eps3 a b c)).
  { intros. apply ip_inj. intro v. rewrite ip_sc_r, !eps3_ip. unfold volume, det3, vsc. ring. }
  assert (DD : Orbital_DWave P (vsc (-(1)) Q) = Orbital_DWave P Q).
  { apply ten_ext. intros. unfold Orbital_DWave. rewrite pwave_sc, !dot_ip, ip_sc_l, ip_sc_r. unfold vsc, Cdiv. ring. }
  repeat split.
  - rewrite !S_VV_S_eq. apply ip_sym.
  - rewrite !S_VV_S1_eq, pwave_adj. apply ip_sym.
  - rewrite !S_VV_D_eq, DD, <- D_left, on_left_right. apply ip_sym.
  - rewrite !S_VV_P_eq, pwave_sc. unfold volume, det3, vsc. ring.
  - rewrite !V_VV_P_eq, pwave_sc, (ip_sym V2). apply vec_ext. intro. unfold vsc. ring.
  - rewrite !V_VV_S_eq, E, pwave_sc. reflexivity.
  - rewrite !V_VV_P1_eq, (E P V2 V1), !pwave_sc, Es, Et. apply vec_ext. intro. unfold vsc. ring.
  - rewrite !V_VV_P2_eq, pwave_sc.
    assert (W : project2 P (fun i j => V2 i * V1 j) = project2 P (fun i j => V1 i * V2 j)).
    { rewrite !project2_eq. apply ten_ext. intros i j. unfold tadd, tsc.
      replace (fun i j => V2 i * V1 j) with (fun i j => (fun i j => V1 i * V2 j) j i) by (apply ten_ext; intros; ring).
      rewrite <- both_flip. f_equal; [|ring]. f_equal. f_equal. assert (Sy := S_sym P). unfold pair2, ip. set (S := Spin1Projector P) in *. clearbody S.
      rewrite (Sy I1 I0), (Sy I2 I0), (Sy I3 I0), (Sy I2 I1), (Sy I3 I1), (Sy I3 I2). ring. }
    rewrite W. apply vec_ext. intro. unfold on_left, vsc, ip. ring.
Qed.
Print Assumptions C80_exchange.

(** The tensor of the decaying particle is proportional to the amplitude of a scalar product, which carries the whole of
    the decay of that product. *)
Theorem C80_scalar (P Q : vec) :
  (forall V1 V2, S_SS_S P Q V1 V2 = V2 * S_SS_S P Q V1 1 /\ V_SS_P P Q V1 V2 = vsc V2 (V_SS_P P Q V1 1) /\
     T_SS_D P Q V1 V2 = tsc V2 (T_SS_D P Q V1 1)) /\
  (forall V1 V2, S_VS_P P Q V1 V2 = V2 * S_VS_P P Q V1 1 /\ V_VS_P P Q V1 V2 = vsc V2 (V_VS_P P Q V1 1) /\
     V_VS_S P Q V1 V2 = vsc V2 (V_VS_S P Q V1 1) /\ V_VS_D P Q V1 V2 = vsc V2 (V_VS_D P Q V1 1) /\
     T_VS_D P Q V1 V2 = tsc V2 (T_VS_D P Q V1 1) /\ T_VS_P P Q V1 V2 = tsc V2 (T_VS_P P Q V1 1)) /\
  (forall V1 V2, S_TS_D P Q V1 V2 = V2 * S_TS_D P Q V1 1 /\ V_TS_P P Q V1 V2 = vsc V2 (V_TS_P P Q V1 1) /\
     T_TS_S P Q V1 V2 = tsc V2 (T_TS_S P Q V1 1)).
Proof.
  repeat split; intros.
  all: try (apply vec_ext; intro); try (apply ten_ext; intros).
  all: unfold S_SS_S, V_SS_P, T_SS_D, S_VS_P, V_VS_P, V_VS_S, V_VS_D, T_VS_D, T_VS_P, S_TS_D, V_TS_P, T_TS_S, vsc, tsc; ring.
Qed.
Print Assumptions C80_scalar.

(** V_TS_D leaves the scalar out (src/Vertex.cpp:294-299 has no factor V2[0]): the result is the same whatever the scalar
    does, so that in a cascade the decay of a scalar resonance beside a tensor drops out of the amplitude. *)
Theorem C80_scalar_refuted : exists P Q V1, ip P P <> 0 /\ spin2_state (vadd (vsc (1/2) P) (vsc (1/2) Q)) V1 /\
  forall V2 : C, V2 <> RtoC 1 -> V_TS_D P Q V1 V2 <> vsc V2 (V_TS_D P Q V1 1).
Proof.
  exists (v4 0 0 0 2), (v4 0 0 1 0), (fun i j => match i, j with I0, I2 | I2, I0 => RtoC 1 | I0, I3 | I3, I0 => RtoC (1/2) | _, _ => RtoC 0 end).
  split; [|split].
  - rewrite ip_v4. intro E. apply RtoC_inj in E. lra.
  - split; [intros [] []; reflexivity|]. assert (H : 1 / 2 * 2 = RtoC 1) by (field; apply two_neq).
    split; [|unfold trace; ring]. apply transverse2_sym; [intros [] []; reflexivity|].
    apply vec_ext; intros []; unfold on_left, on_right, ip, zero, vadd, vsc; cbn [v4]; try ring.
    rewrite RtoC_div by lra. rewrite Cmult_plus_distr_l, H. ring.
  - intros V2 H E. apply H. rewrite !V_TS_D_eq in E.
    set (v := vsc (-(1)) (Orbital_PWave (v4 0 0 0 2) (v4 0 0 1 0))) in E.
    assert (v I0 = 0 /\ v I1 = 0 /\ v I2 = -(1) /\ v I3 = 0) as (A & B & D & F).
    { unfold v. rewrite (proj1 (C79_rest 2 0 0 1 0 ltac:(lra))). unfold vsc. cbn [v4]. repeat split; ring. }
    apply (f_equal (fun f => ip (v4 0 1 0 0) f)) in E. rewrite ip_sc_r, !eps3_ip in E. unfold volume, det3, on_right, ip in E. cbn [v4] in E.
    rewrite A, B, D, F in E. assert (E2 : RtoC 2 * V2 = RtoC 2 * 1).
    { match type of E with ?l = ?r => transitivity (r * -(1)); [|rewrite <- E] end; ring. }
    assert (E3 : RtoC 2 * (V2 - 1) = 0) by (transitivity (RtoC 2 * V2 - RtoC 2 * 1); [ring|rewrite E2; ring]).
    destruct (Ceq_dec (V2 - 1) 0) as [Z|Z]; [|now destruct (Cmult_neq_0 _ _ two_neq Z)].
    transitivity (V2 - 1 + 1); [ring|rewrite Z; ring].
Qed.
Print Assumptions C80_scalar_refuted.

(** The radiative vertices do not depend on the gauge of the photon: adding a multiple of its momentum (Q is the
    difference of the momenta, so that it is half of P - Q) to its polarisation vector changes nothing. *)
Definition photon (P Q : vec) : vec := fun i => 1 / 2 * (P i - Q i).
Definition resonance (P Q : vec) : vec := fun i => 1 / 2 * (P i + Q i).
Lemma helicity_self p : mv (helOp p) p = zero.
Proof. apply vec_ext. intro i. unfold mv, helOp, SO3, square, sum4, zero, Cdiv. destruct i; cbn [nth]; ring. Qed.
Lemma mv_add A a b : mv A (vadd a b) = vadd (mv A a) (mv A b). Proof. apply vec_ext. intro. unfold mv, vadd, sum4. ring. Qed.
Lemma mv_sc A x a : mv A (vsc x a) = vsc x (mv A a). Proof. apply vec_ext. intro. unfold mv, vsc, sum4. ring. Qed.
Lemma helicity_gauge p v x : mv (helOp p) (vadd v (vsc x p)) = mv (helOp p) v.
Proof. rewrite mv_add, mv_sc, helicity_self. apply vec_ext. intro. unfold vadd, vsc, zero. ring. Qed.
Lemma volume_gauge p v a b x : volume (vadd v (vsc x p)) a b p = volume v a b p. Proof. unfold volume, det3, vadd, vsc. ring. Qed.
Theorem C80_gauge_partial (P Q : vec) (x : C) :
  (forall V1 V2, S_VV_rp P Q V1 (vadd V2 (vsc x (photon P Q))) = S_VV_rp P Q V1 V2 /\
     S_VV_rm P Q V1 (vadd V2 (vsc x (photon P Q))) = S_VV_rm P Q V1 V2) /\
  (forall V1 V2, S_TV_rp P Q V1 (vadd V2 (vsc x (photon P Q))) = S_TV_rp P Q V1 V2).
Proof.
  change (photon P Q) with (half_diff P Q). repeat split; intros.
  - unfold S_VV_rp. cbv zeta. rewrite helicity_gauge, !dot_ip, !ip_add_l, !ip_sc_l, !eps4_eq. rewrite (ip_sym (half_diff P Q) V1), (ip_sym (half_diff P Q) (half_sum P Q)). ring.
  - unfold S_VV_rm. cbv zeta. rewrite helicity_gauge, !eps4_eq, volume_gauge. reflexivity.
  - unfold S_TV_rp. cbv zeta. rewrite helicity_gauge, !eps4_eq, volume_gauge. reflexivity.
Qed.
Print Assumptions C80_gauge_partial.

(** S_TV_rm does (src/Vertex.cpp:390-406): [res] contracts the tensor with the momentum of the resonance it belongs to
    (401), for which it vanishes, where the two vertices for vectors have the contraction with the momentum of the photon;
    nothing is left to cancel the first term. The same line makes the antisymmetric term of both tensor vertices vanish for
    every tensor of spin 2. *)
Theorem C80_gauge_refuted : exists P Q V1, spin2_state (resonance P Q) V1 /\ ip (photon P Q) (photon P Q) = 0 /\
  ip (resonance P Q) (resonance P Q) <> 0 /\
  forall V2 x, x <> RtoC 0 -> S_TV_rm P Q V1 (vadd V2 (vsc x (photon P Q))) <> S_TV_rm P Q V1 V2.
Proof.
  set (P := v4 0 0 1 2). set (Q := v4 0 0 (-1) 0).
  set (T := (fun i j => match i, j with I0, I0 | I1, I1 => RtoC 1 | I2, I2 => - RtoC 2 | _, _ => RtoC 0 end) : ten).
  assert (E1 : resonance P Q = v4 0 0 0 1) by (apply vec_ext; intros []; unfold resonance, P, Q; cbn [v4]; rewrite <- RtoC_div, <- RtoC_plus, <- RtoC_mult by lra; f_equal; lra).
  assert (E2 : photon P Q = v4 0 0 1 1) by (apply vec_ext; intros []; unfold photon, P, Q; cbn [v4]; rewrite <- RtoC_div, <- RtoC_minus, <- RtoC_mult by lra; f_equal; lra).
  exists P, Q, T. rewrite E1. split; [|split; [|split]].
  - split; [intros [] []; reflexivity|]. split; [split; apply vec_ext; intros []; unfold on_left, on_right, ip, zero, T; cbn [v4]; ring|].
    unfold trace, T. rewrite C2. ring.
  - rewrite E2, ip_v4. f_equal. lra.
  - rewrite ip_v4. intro H. apply RtoC_inj in H. lra.
  - intros V2 x Hx E. apply Hx. unfold S_TV_rm in E. cbv zeta in E. change (half_sum P Q) with (resonance P Q) in E.
    change (half_diff P Q) with (photon P Q) in E. rewrite helicity_gauge in E. rewrite E1, E2 in E.
    assert (Z : tv T (v4 0 0 0 1) = zero) by (rewrite tv_eq; apply vec_ext; intros []; unfold on_right, ip, zero, T; cbn [v4]; ring).
    rewrite Z in E. rewrite !vt_eq, !dot_ip, !on_left_right in E. unfold on_right in E. rewrite ip_v4 in E. set (e := eps4 _ _ _ _) in E. clearbody e.
    unfold ip, vadd, vsc, T, zero in E. cbn [v4] in E.
    assert (E3 : RtoC 2 * x = 0).
    { replace (1 * 1 - 0 * 0 - 0 * 0 - 0 * 1)%R with 1%R in E by ring.
      match type of E with ?l = ?r => transitivity (r - l); [|rewrite E] end; ring. }
    destruct (Ceq_dec x 0) as [K|K]; [exact K|now destruct (Cmult_neq_0 _ _ two_neq K)].
Qed.
Print Assumptions C80_gauge_refuted.

(** For the polarisations that the program gives a photon, of helicity +1 and -1 along z in the frame of the resonance,
    the two vertices for vectors select that component of the vector of the resonance. *)
Theorem C80_helicity (k M : R) (l : R) (V1 : vec) : (0 < k)%R -> (l * l = 1)%R -> V1 I3 = 0 ->
  let Pg := v4 0 0 k k in let P := vadd (v4 0 0 0 M) Pg in let Q := vadd (v4 0 0 0 M) (vsc (-(1)) Pg) in
  let e := (fun i => match i with I0 => 1 | I1 => Ci * RtoC l | _ => 0 end) : vec in
  S_VV_rp P Q V1 e = RtoC 2 * RtoC (M * k) * ip e V1 /\ S_VV_rm P Q V1 e = RtoC l * S_VV_rp P Q V1 e.
Proof.
  intros Hk Hl H3. cbv zeta. set (e := (fun i => match i with I0 => RtoC 1 | I1 => Ci * RtoC l | _ => RtoC 0 end) : vec).
  set (P := vadd (v4 0 0 0 M) (v4 0 0 k k)). set (Q := vadd (v4 0 0 0 M) (vsc (-(1)) (v4 0 0 k k))).
  assert (Hh : forall a : C, 1 / 2 * (a + a) = a) by (intro a; transitivity ((1 / 2 + 1 / 2) * a); [ring|rewrite half_half; ring]).
  assert (E1 : half_sum P Q = v4 0 0 0 M).
  { apply vec_ext; intro i; unfold half_sum, P, Q, vadd, vsc. transitivity (1 / 2 * (v4 0 0 0 M i + v4 0 0 0 M i)); [f_equal; ring|apply Hh]. }
  assert (E2 : half_diff P Q = v4 0 0 k k).
  { apply vec_ext; intro i; unfold half_diff, P, Q, vadd, vsc. transitivity (1 / 2 * (v4 0 0 k k i + v4 0 0 k k i)); [f_equal; ring|apply Hh]. }
  assert (Nk : RtoC k <> 0) by (intro E; apply RtoC_inj in E; lra).
  assert (Em : modulus (v4 0 0 k k) = RtoC k).
  { unfold modulus. f_equal. cbn [v4]. rewrite <- !RtoC_mult, <- !RtoC_plus. unfold Re, RtoC. cbn. replace (0 * 0 + 0 * 0 + k * k)%R with (k * k)%R by ring. apply sqrt_square. lra. }
  assert (ll : RtoC l * RtoC l = 1) by (rewrite <- RtoC_mult; now f_equal).
  assert (ii : Ci * Ci = - RtoC 1) by (unfold Ci, RtoC, Copp, Cmult; cbn; f_equal; ring).
  assert (Eh : mv (helOp (v4 0 0 k k)) e = vsc (RtoC l) e).
  { apply vec_ext; intro i. unfold mv, helOp, vsc, sum4. rewrite Em. unfold SO3, square, e. destruct i; cbn [nth v4].
    - transitivity (- (Ci * Ci) * RtoC l * (RtoC k * / RtoC k)); [unfold Cdiv; ring|]. rewrite Cinv_r by exact Nk. rewrite ii. ring.
    - transitivity (Ci * (RtoC k * / RtoC k)); [unfold Cdiv; ring|]. rewrite Cinv_r by exact Nk.
      transitivity (Ci * (RtoC l * RtoC l)); [rewrite ll; ring|ring].
    - unfold Cdiv. ring.
    - unfold Cdiv. ring. }
  assert (VR : forall a, volume a V1 (v4 0 0 0 M) (v4 0 0 k k) = - RtoC (M * k) * (a I0 * V1 I1 - a I1 * V1 I0)).
  { intro a. unfold volume, det3. rewrite H3. cbn [v4]. rewrite RtoC_mult. ring. }
  assert (G1 : ip (v4 0 0 0 M) (v4 0 0 k k) = RtoC (M * k)) by (rewrite ip_v4; f_equal; ring).
  assert (G2 : ip e (v4 0 0 0 M) = 0) by (unfold ip, e; cbn [v4]; ring).
  assert (G3 : ip e V1 = - V1 I0 - Ci * RtoC l * V1 I1) by (unfold ip, e; ring).
  assert (S : S_VV_rp P Q V1 e = RtoC 2 * RtoC (M * k) * ip e V1).
  { unfold S_VV_rp. cbv zeta. rewrite E1, E2, Eh, !dot_ip, eps4_eq, VR, G1, G2, G3, C2. unfold vsc, e. set (m := RtoC (M * k)).
    transitivity (m * (- Ci * RtoC l * V1 I1 + (Ci * Ci) * (RtoC l * RtoC l) * V1 I0) + m * (- V1 I0 - Ci * RtoC l * V1 I1)); [ring|].
    rewrite ii, ll. ring. }
  split; [exact S|]. rewrite S. unfold S_VV_rm. cbv zeta. rewrite E1, E2, Eh, !dot_ip, !ip_sc_l, eps4_eq, VR, G1, G2, G3, C2. unfold e.
  set (m := RtoC (M * k)).
  transitivity (m * (- Ci * V1 I1 + (Ci * Ci) * RtoC l * V1 I0) + m * (- RtoC l * V1 I0 - Ci * (RtoC l * RtoC l) * V1 I1)); [ring|].
  rewrite ii. transitivity (m * (- Ci * (RtoC l * RtoC l) * V1 I1 - RtoC l * V1 I0) + m * (- RtoC l * V1 I0 - Ci * (RtoC l * RtoC l) * V1 I1)); [rewrite ll; ring|ring].
Qed.
Print Assumptions C80_helicity.

(** The reflection of space is one of the maps; it changes the sign of the P wave of two vectors, here polarised along x and y. *)
Example C80_ex : lorentz reflection reflection (-(1)) /\ ip (v4 0 0 0 2) (v4 0 0 0 2) <> 0 /\
  S_VV_P (v4 0 0 0 2) (v4 0 0 1 0) (v4 1 0 0 0) (v4 0 1 0 0) = -(RtoC 2) /\
  S_VV_P (app reflection (v4 0 0 0 2)) (app reflection (v4 0 0 1 0)) (app reflection (v4 1 0 0 0)) (app reflection (v4 0 1 0 0)) = RtoC 2.
Proof.
  assert (E : S_VV_P (v4 0 0 0 2) (v4 0 0 1 0) (v4 1 0 0 0) (v4 0 1 0 0) = -(RtoC 2)).
  { rewrite S_VV_P_eq, (proj1 (C79_rest 2 0 0 1 0 ltac:(lra))). unfold volume, det3. cbn [v4]. ring. }
  split; [apply reflection_lorentz|]. split; [rewrite ip_v4; intro H; apply RtoC_inj in H; lra|]. split; [exact E|].
  pose proof (C80_covariant _ _ _ reflection_lorentz (v4 0 0 0 2) (v4 0 0 1 0)) as (_ & _ & K & _). cbv zeta in K.
  rewrite (proj1 (proj2 (proj2 (proj2 (K (v4 1 0 0 0) (v4 0 1 0 0)))))), E. ring.
Qed.
