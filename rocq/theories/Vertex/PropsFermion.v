(** C81: the vertices of fermions. *)
From Verif.Common Require Import Prelude.
From Coq Require Import Reals Lra Field FunctionalExtensionality.
From Coquelicot Require Import Hierarchy Complex.
From Verif.Vertex Require Import Model Spec Algebra OrbitalProofs BosonProofs DiracProofs FermionProofs Covariance Maps PropsOrbital.
Local Open Scope C_scope.

Lemma one1 : RtoC 1 * RtoC 1 = 1. Proof. ring. Qed.
Lemma mone : - RtoC 1 * - RtoC 1 = 1. Proof. ring. Qed.

(** The matrices of two vectors anticommute to twice their product; the two projectors are projectors, exclude each other
    and add up to the identity; what they make solves the Dirac equation, and they keep every solution. *)
Theorem C81_projectors (P : vec) (M : R) : massive P M ->
  (forall p q, madd (mm (slash p) (slash q)) (mm (slash q) (slash p)) = msc (RtoC 2 * ip p q) Identity) /\
  mm (Spin1hProjector P) (Spin1hProjector P) = Spin1hProjector P /\
  mm (Spin1hbProjector P) (Spin1hbProjector P) = Spin1hbProjector P /\
  mm (Spin1hProjector P) (Spin1hbProjector P) = (fun _ _ => 0) /\
  madd (Spin1hProjector P) (Spin1hbProjector P) = Identity /\
  (forall w, dirac 1 P M (mv (Spin1hProjector P) w) /\ dirac (-(1)) P M (mv (Spin1hbProjector P) w) /\
     (dirac 1 P M w -> mv (Spin1hProjector P) w = w) /\ (dirac (-(1)) P M w -> mv (Spin1hbProjector P) w = w)).
Proof.
  intro H. rewrite (Spin1h_eq P M H), (Spin1hb_eq P M H). split; [apply clifford|]. split; [apply (proj_idem P M H), one1|].
  split; [apply (proj_idem P M H), mone|]. split; [apply (proj_ortho P M H), one1|]. split; [apply proj_sum|].
  intro w. split; [apply (dirac_proj P M H), one1|]. split; [apply (dirac_proj P M H), mone|].
  split; [apply (proj_dirac P M H), one1|apply (proj_dirac P M H), mone].
Qed.
Print Assumptions C81_projectors.

(** The bispinor of a decaying particle of spin 1/2 solves the Dirac equation of its momentum. *)
Lemma mv_sum4 (F : ten) (x : ix -> ix -> C) (W : ix -> ix -> vec) y :
  (fun a => sum4 (fun m => sum4 (fun k => x m k * mv F (W m k) a)) * y) = (fun a => mv F (fun b => sum4 (fun m => sum4 (fun k => x m k * W m k b))) a * y).
Proof. apply vec_ext. intro a. f_equal. unfold mv, sum4. ring. Qed.
Section Solve.
  Variables (P Q : vec) (M : R) (e : C).
  Hypothesis (H : massive P M) (He : e * e = 1).
  Local Notation F := (proj e P M).
  Ltac go := intros; rewrite ?mv_mm;
    match goal with
    | |- dirac _ _ _ (mv _ ?w) => exact (dirac_proj P M H e w He)
    | |- dirac _ _ _ (fun a => mv _ ?w a * ?x) => exact (dirac_sc P M e x (mv F w) (dirac_proj P M H e w He))
    end.
  Lemma sol : (forall V1 V2, dirac e P M (fS_S F V1 V2) /\ dirac e P M (fS_S1 F V1 V2) /\ dirac e P M (fS_P F P Q V1 V2) /\ dirac e P M (fS_P1 F P Q V1 V2)) /\
    (forall V1 V2, dirac e P M (Vf_S F P Q V1 V2) /\ dirac e P M (Vf_S1 F P Q V1 V2) /\ dirac e P M (Vf_SL F P Q V1 V2) /\ dirac e P M (Vf_SR F P Q V1 V2) /\
       dirac e P M (Vf_P F P Q V1 V2) /\ dirac e P M (Vf_P1 F P Q V1 V2) /\ dirac e P M (Vf_P2 F P Q V1 V2) /\ dirac e P M (Vf_P3 F P Q V1 V2) /\
       dirac e P M (Vf_D F P Q V1 V2) /\ dirac e P M (Vf_D1 F P Q V1 V2)) /\
    (forall V1 V2, dirac e P M (Tf_P F P Q V1 V2)) /\
    (forall V1 V2, dirac e P M (rS_P F P Q V1 V2) /\ dirac e P M (rS_P1 F P Q V1 V2) /\ dirac e P M (rS_D F P Q V1 V2)).
  Proof.
    repeat split; intros.
    all: try (unfold fS_S, fS_S1, fS_P, fS_P1, Vf_S, Vf_S1, Vf_SL, Vf_SR, Vf_P, Vf_P1, Vf_P2, Vf_P3, Vf_D, Vf_D1, Tf_P, rS_P, rS_P1; cbv zeta; solve [go]).
    - unfold rS_D. set (W := fun m k => mv Gamma5 (mv (gamma_twiddle P m) (V1 k))).
      replace (fun a => sum4 (fun m => sum4 (fun k => sgn m * sgn k * (mv (mm (mm F Gamma5) (gamma_twiddle P m)) (V1 k) a * Orbital_DWave P Q m k))) * V2)
      with (fun a => sum4 (fun m => sum4 (fun k => (sgn m * sgn k * Orbital_DWave P Q m k) * mv F (W m k) a)) * V2).
      + rewrite mv_sum4. go.
      + apply vec_ext. intro a. f_equal. unfold sum4. rewrite !mv_mm. unfold W. ring.
  Qed.
End Solve.
Theorem C81_dirac (P Q : vec) (M : R) : massive P M ->
  (forall V1 V2, dirac 1 P M (f_fS_S P Q V1 V2) /\ dirac 1 P M (f_fS_S1 P Q V1 V2) /\ dirac 1 P M (f_fS_P P Q V1 V2) /\ dirac 1 P M (f_fS_P1 P Q V1 V2)) /\
  (forall V1 V2, dirac 1 P M (f_Vf_S P Q V1 V2) /\ dirac 1 P M (f_Vf_S1 P Q V1 V2) /\ dirac 1 P M (f_Vf_SL P Q V1 V2) /\ dirac 1 P M (f_Vf_SR P Q V1 V2) /\
     dirac 1 P M (f_Vf_P P Q V1 V2) /\ dirac 1 P M (f_Vf_P1 P Q V1 V2) /\ dirac 1 P M (f_Vf_P2 P Q V1 V2) /\ dirac 1 P M (f_Vf_P3 P Q V1 V2) /\
     dirac 1 P M (f_Vf_D P Q V1 V2) /\ dirac 1 P M (f_Vf_D1 P Q V1 V2)) /\
  (forall V1 V2, dirac 1 P M (f_Tf_P P Q V1 V2)) /\
  (forall V1 V2, dirac 1 P M (f_rS_P P Q V1 V2) /\ dirac 1 P M (f_rS_P1 P Q V1 V2) /\ dirac 1 P M (f_rS_D P Q V1 V2)).
Proof.
  intro H. unfold f_fS_S, f_fS_S1, f_fS_P, f_fS_P1, f_Vf_S, f_Vf_S1, f_Vf_SL, f_Vf_SR, f_Vf_P, f_Vf_P1, f_Vf_P2, f_Vf_P3, f_Vf_D, f_Vf_D1, f_Tf_P, f_rS_P, f_rS_P1, f_rS_D.
  rewrite (Spin1h_eq P M H). apply (sol P Q M 1 H one1).
Qed.
Print Assumptions C81_dirac.

(** The same for antiparticles, without F_FS_S1 and F_VF_D1. *)
Theorem C81_dirac_anti_partial (P Q : vec) (M : R) : massive P M ->
  (forall V1 V2, dirac (-(1)) P M (F_FS_S P Q V1 V2) /\ dirac (-(1)) P M (F_FS_P P Q V1 V2) /\ dirac (-(1)) P M (F_FS_P1 P Q V1 V2)) /\
  (forall V1 V2, dirac (-(1)) P M (F_VF_S P Q V1 V2) /\ dirac (-(1)) P M (F_VF_S1 P Q V1 V2) /\ dirac (-(1)) P M (F_VF_SL P Q V1 V2) /\ dirac (-(1)) P M (F_VF_SR P Q V1 V2) /\
     dirac (-(1)) P M (F_VF_P P Q V1 V2) /\ dirac (-(1)) P M (F_VF_P1 P Q V1 V2) /\ dirac (-(1)) P M (F_VF_P2 P Q V1 V2) /\ dirac (-(1)) P M (F_VF_P3 P Q V1 V2) /\
     dirac (-(1)) P M (F_VF_D P Q V1 V2)) /\
  (forall V1 V2, dirac (-(1)) P M (F_TF_P P Q V1 V2)) /\
  (forall V1 V2, dirac (-(1)) P M (F_RS_P P Q V1 V2) /\ dirac (-(1)) P M (F_RS_P1 P Q V1 V2) /\ dirac (-(1)) P M (F_RS_D P Q V1 V2)).
Proof.
  intro H. unfold F_FS_S, F_FS_P, F_FS_P1, F_VF_S, F_VF_S1, F_VF_SL, F_VF_SR, F_VF_P, F_VF_P1, F_VF_P2, F_VF_P3, F_VF_D, F_TF_P, F_RS_P, F_RS_P1, F_RS_D.
  rewrite (Spin1hb_eq P M H). destruct (sol P Q M (-(1)) H mone) as (S1 & S2 & S3 & S4).
  split; [intros V1 V2; destruct (S1 V1 V2) as (a & _ & c & d); exact (conj a (conj c d))|].
  split; [|split; [exact S3|exact S4]]. intros V1 V2. destruct (S2 V1 V2) as (a1 & a2 & a3 & a4 & a5 & a6 & a7 & a8 & a9 & _).
  exact (conj a1 (conj a2 (conj a3 (conj a4 (conj a5 (conj a6 (conj a7 (conj a8 a9)))))))).
Qed.
Print Assumptions C81_dirac_anti_partial.

(** F_FS_S1 (src/FermionVertices.cpp:273) and F_VF_D1 (305-311) start with the projector of the particle,
    Spin1hProjector, where every other vertex of antiparticles has Spin1hbProjector: what they return solves the equation of
    the particle instead, so that the bispinor of the antiparticle, with which it is combined one step up, projects it
    away. Here an antiparticle at rest of mass 3 that decays at threshold. *)
Definition spinor (a b c d : C) : vec := fun i => match i with I0 => a | I1 => b | I2 => c | I3 => d end.
Lemma rest_massive (M : R) : (0 < M)%R -> massive (v4 0 0 0 M) M.
Proof. intro H. split; [intros []; reflexivity|]. split; [rewrite ip_v4; f_equal; ring|exact H]. Qed.
Lemma rest_dirac (M : R) a b : dirac 1 (v4 0 0 0 M) M (spinor a b 0 0) /\ dirac (-(1)) (v4 0 0 0 M) M (spinor 0 0 a b).
Proof.
  unfold dirac. rewrite slash_entries. cbn [v4]. split; apply vec_ext; intros []; unfold mv, square, sum4, vsc, spinor; cbn [nth]; ring.
Qed.
Lemma not_both P M v : massive P M -> dirac 1 P M v -> dirac (-(1)) P M v -> v = zero.
Proof.
  intros H D E. unfold dirac in *. rewrite D in E. apply vec_ext. intro i. apply (f_equal (fun f => f i)) in E. unfold vsc, zero in *.
  assert (Z : RtoC 2 * (RtoC M * v i) = 0) by (rewrite C2; transitivity ((1 * RtoC M * v i) + RtoC M * v i); [ring|rewrite E; ring]).
  destruct (Ceq_dec (v i) 0) as [K|K]; [exact K|]. exfalso. apply (Cmult_neq_0 _ _ two_neq (Cmult_neq_0 _ _ (M_neq P M H) K) Z).
Qed.
Theorem C81_antiparticle_refuted : exists P Q V M m, massive P M /\ massive (fun i => 1 / 2 * (P i + Q i)) m /\
  dirac (-(1)) (fun i => 1 / 2 * (P i + Q i)) m V /\ ~ dirac (-(1)) P M (F_FS_S1 P Q V 1) /\
  (forall Q' V1 V2, dirac 1 P M (F_FS_S1 P Q' V1 V2)) /\ (forall Q' V1 V2, dirac 1 P M (F_VF_D1 P Q' V1 V2)).
Proof.
  assert (E : (fun i => 1 / 2 * (v4 0 0 0 3 i + v4 0 0 0 1 i)) = v4 0 0 0 2).
  { apply vec_ext; intros []; cbn [v4]; rewrite <- RtoC_div, <- RtoC_plus, <- RtoC_mult by lra; f_equal; lra. }
  exists (v4 0 0 0 3), (v4 0 0 0 1), (spinor 0 0 1 0), 3%R, 2%R. rewrite E.
  assert (H : massive (v4 0 0 0 3) 3) by (apply rest_massive; lra).
  assert (K : forall Q' V1 V2, dirac 1 (v4 0 0 0 3) 3 (F_FS_S1 (v4 0 0 0 3) Q' V1 V2)) by (intros; unfold F_FS_S1; rewrite (Spin1h_eq _ _ H); exact (proj1 (proj2 (proj1 (sol _ Q' _ _ H one1) V1 V2)))).
  split; [exact H|]. split; [apply rest_massive; lra|]. split; [exact (proj2 (rest_dirac 2 1 0))|]. split; [|split; [exact K|]].
  - intro D. apply (not_both _ _ _ H (K _ _ _)) in D. unfold F_FS_S1, fS_S1 in D. rewrite mv_mm in D.
    replace (mv Gamma5 (spinor 0 0 1 0)) with (spinor 1 0 0 0) in D by (apply vec_ext; intros []; unfold mv, Gamma5, square, sum4, spinor; cbn [nth]; ring).
    rewrite (Spin1h_eq _ _ H), (proj_dirac _ _ H _ _ one1 (proj1 (rest_dirac 3 1 0))) in D. apply (f_equal (fun f => f I0)) in D. unfold spinor, zero in D.
    assert (D' : RtoC 1 = RtoC 0) by (rewrite <- D; ring). apply RtoC_inj in D'. lra.
  - intros. unfold F_VF_D1. rewrite (Spin1h_eq _ _ H). exact (proj2 (proj2 (proj2 (proj2 (proj2 (proj2 (proj2 (proj2 (proj2 (proj1 (proj2 (sol _ Q' _ _ H one1)) V1 V2)))))))))).
Qed.
Print Assumptions C81_antiparticle_refuted.

(** The tensor of a decaying particle of spin 3/2 is a state of spin 3/2, and the projectors of spin 3/2 make such a state of
    everything and keep every such state, up to the sign. *)
Theorem C81_spin3h (P Q : vec) (M : R) : massive P M ->
  (forall V1 V2, spin3h_state 1 P M (r_fS_P P Q V1 V2) /\ spin3h_state 1 P M (r_fS_D P Q V1 V2) /\
     spin3h_state (-(1)) P M (R_FS_P P Q V1 V2) /\ spin3h_state (-(1)) P M (R_FS_D P Q V1 V2)) /\
  (forall W, spin3h_state 1 P M (contract3 (Spin3hProjector P) W) /\ spin3h_state (-(1)) P M (contract3 (Spin3hbProjector P) W)) /\
  (forall W, spin3h_state 1 P M W -> contract3 (Spin3hProjector P) W = (fun m => vsc (-(1)) (W m))) /\
  (forall W, spin3h_state (-(1)) P M W -> contract3 (Spin3hbProjector P) W = (fun m => vsc (-(1)) (W m))).
Proof.
  intro H. unfold r_fS_P, r_fS_D, R_FS_P, R_FS_D, Spin3hProjector, Spin3hbProjector. rewrite (Spin1h_eq P M H), (Spin1hb_eq P M H).
  split; [|split; [|split]].
  - intros. split; [apply (to_r_P_state P M H), one1|]. split; [apply (to_r_D_state P M H), one1|]. split; [apply (to_r_P_state P M H), mone|apply (to_r_D_state P M H), mone].
  - intro W. split; [apply (project3_state P M H), one1|apply (project3_state P M H), mone].
  - intros W S. apply (project3_id P M H); [apply one1|exact S].
  - intros W S. apply (project3_id P M H); [apply mone|exact S].
Qed.
Print Assumptions C81_spin3h.

(** Vectors made of two fermions: three of the four are transverse. *)
Theorem C81_currents_partial (P Q V1 V2 : vec) : ip P P <> 0 ->
  transverse P (V_fF_S P Q V1 V2) /\ transverse P (V_fF_PL P Q V1 V2) /\ transverse P (V_fF_PR P Q V1 V2).
Proof.
  intro N. unfold transverse. split; [|split; unfold V_fF_PL, V_fF_PR; rewrite tv_eq, S_right; now apply pwave_trans].
  unfold V_fF_S. assert (E : gsum (fun m => vsc (P m) (mv (gamma_twiddle P m) V1)) = zero).
  { rewrite (gsum_ext _ (fun m => vadd (vsc (P m) (mv (Gamma m) V1)) (vsc (-(1)) (vsc (P m * P m / ip P P) (mv (slash P) V1))))).
    - rewrite gsum_add, gsum_gamma_vec, gsum_sc. apply vec_ext. intro a. unfold vadd, vsc, zero, gsum. set (x := mv (slash P) V1 a).
      transitivity (x - x * (ip P P * / ip P P)); [unfold ip, Cdiv; ring|]. rewrite Cinv_r by exact N. ring.
    - intro m. rewrite gt_eq, mv_madd, mv_msc. apply vec_ext. intro a. unfold vadd, vsc, Cdiv. ring. }
  set (u := Bar V2). clearbody u. transitivity (sum4 (fun a => u a * gsum (fun m => vsc (P m) (mv (gamma_twiddle P m) V1)) a)).
  - unfold sandwich, gsum, ip, vsc, sum4. ring.
  - rewrite E. unfold sum4, zero. ring.
Qed.
Print Assumptions C81_currents_partial.

(** The fourth, V_fF_S1 (src/Vertex.cpp:314), is not: the axial current of two fermions has the component (m1 + m2) times
    their pseudoscalar along P, and the vertex does not take it away as the other three do. A vector of momentum P is given
    a part of spin 0. Here two fermions of mass 1 at threshold. *)
Theorem C81_axial_refuted : exists P Q V1 V2 M m, massive P M /\ dirac 1 (fun i => 1 / 2 * (P i + Q i)) m V1 /\
  dirac (-(1)) (fun i => 1 / 2 * (P i - Q i)) m V2 /\ ~ transverse P (V_fF_S1 P Q V1 V2).
Proof.
  exists (v4 0 0 0 2), (v4 0 0 0 0), (spinor 1 0 0 0), (spinor 0 0 1 0), 2%R, 1%R.
  assert (E : (fun i => 1 / 2 * (v4 0 0 0 2 i + v4 0 0 0 0 i)) = v4 0 0 0 1 /\ (fun i => 1 / 2 * (v4 0 0 0 2 i - v4 0 0 0 0 i)) = v4 0 0 0 1).
  { split; apply vec_ext; intros []; cbn [v4]; rewrite <- RtoC_div by lra; rewrite <- ?RtoC_plus, <- ?RtoC_minus, <- RtoC_mult; f_equal; lra. }
  destruct E as (-> & ->). split; [apply rest_massive; lra|]. split; [exact (proj1 (rest_dirac 1 1 0))|]. split; [exact (proj2 (rest_dirac 1 1 0))|].
  unfold transverse, V_fF_S1, ip, sandwich. intro D.
  assert (G : forall m, mv (mm Gamma5 (Gamma4Vec m)) (spinor 1 0 0 0) = mv Gamma5 (mv (Gamma m) (spinor 1 0 0 0))) by (intro; apply mv_mm).
  assert (B : Bar (spinor 0 0 1 0) = spinor 0 0 (-(1)) 0).
  { apply vec_ext. assert (J0 : Cconj 0 = 0) by (unfold Cconj, RtoC; cbn; f_equal; ring). assert (J1 : Cconj 1 = 1) by (unfold Cconj, RtoC; cbn; f_equal; ring).
    intros []; unfold Bar, Gamma, square, sum4, spinor; cbn [nth]; rewrite ?J0, ?J1; ring. }
  rewrite B in D. cbn [v4] in D. unfold sum4 in D. rewrite (G I3) in D.
  assert (G3 : mv Gamma5 (mv (Gamma I3) (spinor 1 0 0 0)) = spinor 0 0 1 0).
  { apply vec_ext. intros []; unfold mv, Gamma5, Gamma, square, sum4, spinor; cbn [nth]; ring. }
  rewrite G3 in D. unfold spinor at 1 2 3 4 5 6 7 8 in D.
  assert (D' : RtoC 2 = RtoC 0) by (match type of D with ?l = _ => transitivity (- l); [ring|rewrite D; ring] end).
  apply RtoC_inj in D'. lra.
Qed.
Print Assumptions C81_axial_refuted.

(** Every vertex turns with the frame: when vectors are turned by a Lorentz map and bispinors by a matrix that stands for
    it, the result is turned likewise. The vertices with one Gamma5 or one antisymmetric tensor are multiplied by the sign
    of the map, which is -1 for the reflection of space; the reflection exchanges left and right. *)
Theorem C81_covariant (A B U U' : ten) (s : C) : lorentz A B s -> stands U U' A s -> forall P Q,
  let X := app A in let X2 := tapp A in let Y := mv U in let XY := rapp A U in
  (forall V1 V2,
     f_fS_S (X P) (X Q) (Y V1) V2 = Y (f_fS_S P Q V1 V2) /\ F_FS_S (X P) (X Q) (Y V1) V2 = Y (F_FS_S P Q V1 V2) /\
     f_fS_S1 (X P) (X Q) (Y V1) V2 = vsc s (Y (f_fS_S1 P Q V1 V2)) /\
     f_fS_P (X P) (X Q) (Y V1) V2 = vsc s (Y (f_fS_P P Q V1 V2)) /\ F_FS_P (X P) (X Q) (Y V1) V2 = vsc s (Y (F_FS_P P Q V1 V2)) /\
     f_fS_P1 (X P) (X Q) (Y V1) V2 = Y (f_fS_P1 P Q V1 V2) /\ F_FS_P1 (X P) (X Q) (Y V1) V2 = Y (F_FS_P1 P Q V1 V2) /\
     r_fS_P (X P) (X Q) (Y V1) V2 = XY (r_fS_P P Q V1 V2) /\ R_FS_P (X P) (X Q) (Y V1) V2 = XY (R_FS_P P Q V1 V2) /\
     r_fS_D (X P) (X Q) (Y V1) V2 = XY (fun m => vsc s (r_fS_D P Q V1 V2 m)) /\
     R_FS_D (X P) (X Q) (Y V1) V2 = XY (fun m => vsc s (R_FS_D P Q V1 V2 m))) /\
  (forall V1 V2,
     f_Vf_S (X P) (X Q) (X V1) (Y V2) = vsc s (Y (f_Vf_S P Q V1 V2)) /\ F_VF_S (X P) (X Q) (X V1) (Y V2) = vsc s (Y (F_VF_S P Q V1 V2)) /\
     f_Vf_S1 (X P) (X Q) (X V1) (Y V2) = Y (f_Vf_S1 P Q V1 V2) /\ F_VF_S1 (X P) (X Q) (X V1) (Y V2) = Y (F_VF_S1 P Q V1 V2) /\
     f_Vf_P (X P) (X Q) (X V1) (Y V2) = Y (f_Vf_P P Q V1 V2) /\ F_VF_P (X P) (X Q) (X V1) (Y V2) = Y (F_VF_P P Q V1 V2) /\
     f_Vf_P1 (X P) (X Q) (X V1) (Y V2) = vsc (s * s) (Y (f_Vf_P1 P Q V1 V2)) /\ F_VF_P1 (X P) (X Q) (X V1) (Y V2) = vsc (s * s) (Y (F_VF_P1 P Q V1 V2)) /\
     f_Vf_P2 (X P) (X Q) (X V1) (Y V2) = vsc s (Y (f_Vf_P2 P Q V1 V2)) /\ F_VF_P2 (X P) (X Q) (X V1) (Y V2) = vsc s (Y (F_VF_P2 P Q V1 V2)) /\
     f_Vf_P3 (X P) (X Q) (X V1) (Y V2) = vsc s (Y (f_Vf_P3 P Q V1 V2)) /\ F_VF_P3 (X P) (X Q) (X V1) (Y V2) = vsc s (Y (F_VF_P3 P Q V1 V2)) /\
     f_Vf_D (X P) (X Q) (X V1) (Y V2) = vsc s (Y (f_Vf_D P Q V1 V2)) /\ F_VF_D (X P) (X Q) (X V1) (Y V2) = vsc s (Y (F_VF_D P Q V1 V2)) /\
     f_Vf_D1 (X P) (X Q) (X V1) (Y V2) = Y (f_Vf_D1 P Q V1 V2)) /\
  (s = 1 -> forall V1 V2,
     f_Vf_SL (X P) (X Q) (X V1) (Y V2) = Y (f_Vf_SL P Q V1 V2) /\ f_Vf_SR (X P) (X Q) (X V1) (Y V2) = Y (f_Vf_SR P Q V1 V2) /\
     F_VF_SL (X P) (X Q) (X V1) (Y V2) = Y (F_VF_SL P Q V1 V2) /\ F_VF_SR (X P) (X Q) (X V1) (Y V2) = Y (F_VF_SR P Q V1 V2)) /\
  (s = -(1) -> forall V1 V2,
     f_Vf_SL (X P) (X Q) (X V1) (Y V2) = Y (f_Vf_SR P Q V1 V2) /\ f_Vf_SR (X P) (X Q) (X V1) (Y V2) = Y (f_Vf_SL P Q V1 V2) /\
     F_VF_SL (X P) (X Q) (X V1) (Y V2) = Y (F_VF_SR P Q V1 V2) /\ F_VF_SR (X P) (X Q) (X V1) (Y V2) = Y (F_VF_SL P Q V1 V2)) /\
  (forall V1 V2, f_Tf_P (X P) (X Q) (X2 V1) (Y V2) = Y (f_Tf_P P Q V1 V2) /\ F_TF_P (X P) (X Q) (X2 V1) (Y V2) = Y (F_TF_P P Q V1 V2)) /\
  (forall V1 V2,
     f_rS_P (X P) (X Q) (XY V1) V2 = Y (f_rS_P P Q V1 V2) /\ F_RS_P (X P) (X Q) (XY V1) V2 = Y (F_RS_P P Q V1 V2) /\
     f_rS_P1 (X P) (X Q) (XY V1) V2 = vsc s (Y (f_rS_P1 P Q V1 V2)) /\ F_RS_P1 (X P) (X Q) (XY V1) V2 = vsc s (Y (F_RS_P1 P Q V1 V2)) /\
     f_rS_D (X P) (X Q) (XY V1) V2 = vsc s (Y (f_rS_D P Q V1 V2)) /\ F_RS_D (X P) (X Q) (XY V1) V2 = vsc s (Y (F_RS_D P Q V1 V2))).
Proof.
  intros L St P Q. cbv zeta. pose proof (U_F A B U U' s L St P) as HF. pose proof (U_Fb A B U U' s L St P) as HFb.
  split; [|split; [|split; [|split; [|split]]]].
  - intros V1 V2.
    split; [exact (fS_S_cov U _ _ HF V1 V2)|].
    split; [exact (fS_S_cov U _ _ HFb V1 V2)|].
    split; [exact (fS_S1_cov A U U' s St _ _ HF V1 V2)|].
    split; [exact (fS_P_cov A B U U' s L St _ _ HF P Q V1 V2)|].
    split; [exact (fS_P_cov A B U U' s L St _ _ HFb P Q V1 V2)|].
    split; [exact (fS_P1_cov A B U U' s L St _ _ HF P Q V1 V2)|].
    split; [exact (fS_P1_cov A B U U' s L St _ _ HFb P Q V1 V2)|].
    split; [exact (to_r_P_cov A B U U' s L St _ _ HF P Q V1 V2)|].
    split; [exact (to_r_P_cov A B U U' s L St _ _ HFb P Q V1 V2)|].
    split; [exact (to_r_D_cov A B U U' s L St _ _ HF P Q V1 V2)|].
    exact (to_r_D_cov A B U U' s L St _ _ HFb P Q V1 V2).
  - intros V1 V2.
    split; [exact (Vf_S_cov A B U U' s L St _ _ HF P Q V1 V2)|].
    split; [exact (Vf_S_cov A B U U' s L St _ _ HFb P Q V1 V2)|].
    split; [exact (Vf_S1_cov A B U U' s L St _ _ HF P Q V1 V2)|].
    split; [exact (Vf_S1_cov A B U U' s L St _ _ HFb P Q V1 V2)|].
    split; [exact (Vf_P_cov A B U s L _ _ HF P Q V1 V2)|].
    split; [exact (Vf_P_cov A B U s L _ _ HFb P Q V1 V2)|].
    split; [exact (Vf_P1_cov A B U U' s L St _ _ HF P Q V1 V2)|].
    split; [exact (Vf_P1_cov A B U U' s L St _ _ HFb P Q V1 V2)|].
    split; [exact (Vf_P2_cov A B U U' s L St _ _ HF P Q V1 V2)|].
    split; [exact (Vf_P2_cov A B U U' s L St _ _ HFb P Q V1 V2)|].
    split; [exact (Vf_P3_cov A B U U' s L St _ _ HF P Q V1 V2)|].
    split; [exact (Vf_P3_cov A B U U' s L St _ _ HFb P Q V1 V2)|].
    split; [exact (Vf_D_cov A B U U' s L St _ _ HF P Q V1 V2)|].
    split; [exact (Vf_D_cov A B U U' s L St _ _ HFb P Q V1 V2)|].
    exact (Vf_D1_cov A B U U' s L St _ _ HF P Q V1 V2).
  - intros E V1 V2. pose proof (proj1 (Vf_SLR_cov A U U' s St _ _ HF P Q V1 V2) E) as (a & b). pose proof (proj1 (Vf_SLR_cov A U U' s St _ _ HFb P Q V1 V2) E) as (c & d).
    exact (conj a (conj b (conj c d))).
  - intros E V1 V2. pose proof (proj2 (Vf_SLR_cov A U U' s St _ _ HF P Q V1 V2) E) as (a & b). pose proof (proj2 (Vf_SLR_cov A U U' s St _ _ HFb P Q V1 V2) E) as (c & d).
    exact (conj a (conj b (conj c d))).
  - intros V1 V2. exact (conj (Tf_P_cov A B U U' s L St _ _ HF P Q V1 V2) (Tf_P_cov A B U U' s L St _ _ HFb P Q V1 V2)).
  - intros V1 V2.
    split; [exact (rS_P_cov A B U s L _ _ HF P Q V1 V2)|].
    split; [exact (rS_P_cov A B U s L _ _ HFb P Q V1 V2)|].
    split; [exact (rS_P1_cov A B U U' s L St _ _ HF P Q V1 V2)|].
    split; [exact (rS_P1_cov A B U U' s L St _ _ HFb P Q V1 V2)|].
    split; [exact (rS_D_cov A B U U' s L St _ _ HF P Q V1 V2)|].
    exact (rS_D_cov A B U U' s L St _ _ HFb P Q V1 V2).
Qed.
Print Assumptions C81_covariant.

(** The same for numbers and vectors made of two fermions, when the matrix keeps the product of bispinors. *)
Theorem C81_currents_covariant (A B U U' : ten) (s : C) : lorentz A B s -> stands U U' A s -> keeps_bar U U' -> forall P Q V1 V2,
  let X := app A in let Y := mv U in
  S_fF_S (X P) (X Q) (Y V1) (Y V2) = S_fF_S P Q V1 V2 /\
  S_fF_S1 (X P) (X Q) (Y V1) (Y V2) = s * S_fF_S1 P Q V1 V2 /\
  V_fF_S (X P) (X Q) (Y V1) (Y V2) = X (V_fF_S P Q V1 V2) /\
  V_fF_S1 (X P) (X Q) (Y V1) (Y V2) = vsc s (X (V_fF_S1 P Q V1 V2)) /\
  (s = 1 -> V_fF_PL (X P) (X Q) (Y V1) (Y V2) = X (V_fF_PL P Q V1 V2) /\ V_fF_PR (X P) (X Q) (Y V1) (Y V2) = X (V_fF_PR P Q V1 V2)) /\
  (s = -(1) -> V_fF_PL (X P) (X Q) (Y V1) (Y V2) = X (V_fF_PR P Q V1 V2) /\ V_fF_PR (X P) (X Q) (Y V1) (Y V2) = X (V_fF_PL P Q V1 V2)).
Proof.
  intros L St K P Q V1 V2. cbv zeta.
  split; [exact (S_fF_S_cov A U U' s St K P Q V1 V2)|]. split; [exact (S_fF_S1_cov A U U' s St K P Q V1 V2)|].
  split; [exact (V_fF_S_cov A B U U' s L St K P Q V1 V2)|]. split; [exact (V_fF_S1_cov A B U U' s L St K P Q V1 V2)|].
  exact (V_fF_P_cov A B U U' s L St K P Q V1 V2).
Qed.
Print Assumptions C81_currents_covariant.

(** The maps the two theorems are about include the boosts along z, the rotations about z and y, the reflection of space,
    and with any two of them the one after the other: all Lorentz maps that keep the direction of time. *)
Theorem C81_maps :
  (forall c h : R, (c * c - h * h = 1)%R -> lorentz (boost_z c h) (boost_z c (- RtoC h)) 1 /\
     stands (boost_spinor c h) (boost_spinor c (- RtoC h)) (boost_z c h) 1 /\ keeps_bar (boost_spinor c h) (boost_spinor c (- RtoC h))) /\
  (forall c s : R, (c * c + s * s = 1)%R -> lorentz (rot_z c s) (rot_z c (- RtoC s)) 1 /\
     stands (rot_z_spinor c s) (rot_z_spinor c (- RtoC s)) (rot_z c s) 1 /\ keeps_bar (rot_z_spinor c s) (rot_z_spinor c (- RtoC s))) /\
  (forall c s : R, (c * c + s * s = 1)%R -> lorentz (rot_y c s) (rot_y c (- RtoC s)) 1 /\
     stands (rot_y_spinor c s) (rot_y_spinor c (- RtoC s)) (rot_y c s) 1 /\ keeps_bar (rot_y_spinor c s) (rot_y_spinor c (- RtoC s))) /\
  (lorentz reflection reflection (-(1)) /\ stands (Gamma I3) (Gamma I3) reflection (-(1)) /\ keeps_bar (Gamma I3) (Gamma I3)) /\
  (forall A1 B1 U1 V1 s1 A2 B2 U2 V2 s2, lorentz A1 B1 s1 /\ stands U1 V1 A1 s1 /\ keeps_bar U1 V1 -> lorentz A2 B2 s2 /\ stands U2 V2 A2 s2 /\ keeps_bar U2 V2 ->
     lorentz (mm A1 A2) (mm B2 B1) (s1 * s2) /\ stands (mm U1 U2) (mm V2 V1) (mm A1 A2) (s1 * s2) /\ keeps_bar (mm U1 U2) (mm V2 V1)).
Proof.
  assert (Hb : forall c h : R, (c * c - h * h = 1)%R -> RtoC c * RtoC c = 1 + RtoC h * RtoC h) by (intros c h E; rewrite <- !RtoC_mult, <- RtoC_plus; f_equal; lra).
  assert (Hr : forall c h : R, (c * c + h * h = 1)%R -> RtoC c * RtoC c = 1 - RtoC h * RtoC h) by (intros c h E; rewrite <- !RtoC_mult, <- RtoC_minus; f_equal; lra).
  split; [|split; [|split; [|split]]].
  - intros c h E. split; [apply boost_lorentz; auto|]. split; [apply boost_stands; auto|apply boost_bar].
  - intros c h E. split; [apply rot_z_lorentz; auto|]. split; [apply rot_z_stands; auto|apply rot_z_bar].
  - intros c h E. split; [apply rot_y_lorentz; auto|]. split; [apply rot_y_stands; auto|apply rot_y_bar].
  - split; [apply reflection_lorentz|]. split; [apply reflection_stands|apply reflection_bar].
  - intros A1 B1 U1 V1 s1 A2 B2 U2 V2 s2 (a & b & c) (d & e & f). split; [exact (lorentz_mm _ _ _ _ _ _ a d)|]. split; [exact (stands_mm _ _ _ _ _ _ _ _ b e)|exact (bar_mm _ _ _ _ c f)].
Qed.
Print Assumptions C81_maps.

(** The bispinor of the decaying particle is proportional to the amplitude of a scalar product. *)
Theorem C81_scalar_partial (P Q V1 : vec) (V2 : C) (W : ix -> vec) :
  f_fS_S P Q V1 V2 = vsc V2 (f_fS_S P Q V1 1) /\ F_FS_S P Q V1 V2 = vsc V2 (F_FS_S P Q V1 1) /\
  f_fS_S1 P Q V1 V2 = vsc V2 (f_fS_S1 P Q V1 1) /\ F_FS_S1 P Q V1 V2 = vsc V2 (F_FS_S1 P Q V1 1) /\
  f_fS_P1 P Q V1 V2 = vsc V2 (f_fS_P1 P Q V1 1) /\ F_FS_P1 P Q V1 V2 = vsc V2 (F_FS_P1 P Q V1 1) /\
  f_rS_P P Q W V2 = vsc V2 (f_rS_P P Q W 1) /\ F_RS_P P Q W V2 = vsc V2 (F_RS_P P Q W 1) /\
  f_rS_P1 P Q W V2 = vsc V2 (f_rS_P1 P Q W 1) /\ F_RS_P1 P Q W V2 = vsc V2 (F_RS_P1 P Q W 1) /\
  f_rS_D P Q W V2 = vsc V2 (f_rS_D P Q W 1) /\ F_RS_D P Q W V2 = vsc V2 (F_RS_D P Q W 1).
Proof.
  repeat split; apply vec_ext; intro a; unfold f_fS_S, F_FS_S, f_fS_S1, F_FS_S1, f_fS_P1, F_FS_P1, f_rS_P, F_RS_P, f_rS_P1, F_RS_P1, f_rS_D, F_RS_D, fS_S, fS_S1, fS_P1, rS_P, rS_P1, rS_D, vsc.
  all: match goal with |- ?x * _ = _ * (?x * _) => generalize x; intro; ring end.
Qed.
Print Assumptions C81_scalar_partial.

(** f_fS_P, F_FS_P, r_fS_P, r_fS_D, R_FS_P and R_FS_D (src/FermionVertices.cpp:24-33, 138-161, 200-209, 314-337) have no factor
    V2[0]: the decay of a scalar resonance beside the fermion drops out of the amplitude, while the vertices with the other
    orbital angular momenta of the same decay keep it. *)
Theorem C81_scalar_refuted : exists P Q V1 M m, massive P M /\ massive (fun i => 1 / 2 * (P i + Q i)) m /\ dirac 1 (fun i => 1 / 2 * (P i + Q i)) m V1 /\
  (forall V2, V2 <> RtoC 1 -> f_fS_P P Q V1 V2 <> vsc V2 (f_fS_P P Q V1 1)) /\
  (forall W x y, F_FS_P P Q W x = F_FS_P P Q W y /\ r_fS_P P Q W x = r_fS_P P Q W y /\ r_fS_D P Q W x = r_fS_D P Q W y /\
     R_FS_P P Q W x = R_FS_P P Q W y /\ R_FS_D P Q W x = R_FS_D P Q W y).
Proof.
  set (P := v4 0 0 0 10). set (Q := v4 0 0 6 0).
  assert (E : (fun i => 1 / 2 * (P i + Q i)) = v4 0 0 3 5).
  { apply vec_ext; intros []; unfold P, Q; cbn [v4]; rewrite <- RtoC_div, <- RtoC_plus, <- RtoC_mult by lra; f_equal; lra. }
  exists P, Q, (spinor (RtoC 3) 0 1 0), 10%R, 4%R. rewrite E.
  assert (H : massive P 10) by (apply rest_massive; lra).
  split; [exact H|]. split; [split; [intros []; reflexivity|split; [rewrite ip_v4; f_equal; lra|lra]]|]. split; [|split].
  - unfold dirac. rewrite slash_entries. cbn [v4]. apply vec_ext; intros []; unfold mv, square, sum4, vsc, spinor; cbn [nth].
    + transitivity (RtoC (5 * 3 - 3 * 1)); [rewrite RtoC_minus, !RtoC_mult; ring|]. rewrite Cmult_1_l, <- RtoC_mult. f_equal. lra.
    + ring.
    + transitivity (RtoC (3 * 3 - 5 * 1)); [rewrite RtoC_minus, !RtoC_mult; ring|]. rewrite Cmult_1_l, <- RtoC_mult. f_equal. lra.
    + ring.
  - assert (N : f_fS_P P Q (spinor (RtoC 3) 0 1 0) 1 I0 = RtoC 18).
    { unfold f_fS_P, fS_P. unfold P at 2, Q. rewrite (proj1 (C79_rest 10 0 0 6 0 ltac:(lra))). rewrite !mv_mm.
      replace (mv Gamma5 (mv (slash (v4 0 0 6 0)) (spinor (RtoC 3) 0 1 0))) with (vadd (spinor (RtoC 18) 0 0 0) (spinor 0 0 (- RtoC 6) 0)).
      - rewrite mv_vadd, (Spin1h_eq P 10 H), (proj_dirac P 10 H 1 _ one1 (proj1 (rest_dirac 10 (RtoC 18) 0))).
        assert (Z : mv (proj 1 P 10) (spinor 0 0 (- RtoC 6) 0) = zero).
        { pose proof (proj_dirac P 10 H (-(1)) _ mone (proj2 (rest_dirac 10 (- RtoC 6) 0))) as K.
          rewrite <- K, <- mv_mm, (proj_ortho P 10 H 1 one1). apply vec_ext. intro. unfold mv, sum4, zero. ring. }
        rewrite Z. unfold vadd, zero, spinor. ring.
      - rewrite slash_entries. cbn [v4]. apply vec_ext; intros []; unfold vadd, mv, Gamma5, square, sum4, spinor; cbn [nth]; try ring.
        transitivity (RtoC (6 * 3)); [|rewrite RtoC_mult; ring]. rewrite Cplus_0_r. f_equal. lra. }
    intros V2 HV D. apply HV. change (f_fS_P P Q (spinor (RtoC 3) 0 1 0) V2) with (f_fS_P P Q (spinor (RtoC 3) 0 1 0) 1) in D.
    apply (f_equal (fun f => f I0)) in D. unfold vsc in D. rewrite N in D.
    assert (N18 : RtoC 18 <> 0) by (intro K; apply RtoC_inj in K; lra).
    transitivity (V2 * RtoC 18 * / RtoC 18); [field; exact N18|]. rewrite <- D. field. exact N18.
  - intros. repeat split; reflexivity.
Qed.
Print Assumptions C81_scalar_refuted.

(** f_fS_SL, f_fS_SR, F_FS_SL and F_FS_SR (src/FermionVertices.cpp:84-95, 260-271) contract the matrix with V2, the tensor of the
    scalar, instead of V1, the bispinor. The tensor of the scalar has one component, of which the product reads four: the
    check in Tensor::symmetrisedIndex is off by one and reports without stopping, and the read is out of bounds, whatever
    the matrix and the bispinor are. *)
Theorem C81_chiral_refuted : exists V2 : C, forall (m : list C) V1, List.length m = 16%nat -> fS_chiral m V1 V2 = UB.
Proof.
  exists (RtoC 1). intros m V1 H. do 16 (destruct m as [|? m]; [discriminate|]). destruct m; [|discriminate]. reflexivity.
Qed.
Print Assumptions C81_chiral_refuted.

(** A moving particle of mass 4 and its bispinor, at rest a state of spin 3/2, and a boost. *)
Example C81_ex : massive (v4 0 0 3 5) 4 /\ spin3h_state 1 (v4 0 0 0 1) 1 (fun m => match m with I0 => spinor 1 0 0 0 | I1 => spinor Ci 0 0 0 | _ => zero end) /\
  stands (boost_spinor (RtoC (5/4)) (RtoC (3/4))) (boost_spinor (RtoC (5/4)) (- RtoC (3/4))) (boost_z (RtoC (5/4)) (RtoC (3/4))) 1 /\
  boost_z (RtoC (5/4)) (RtoC (3/4)) I2 I3 = RtoC (15/8).
Proof.
  split; [split; [intros []; reflexivity|split; [rewrite ip_v4; f_equal; lra|lra]]|]. split; [|split].
  - split; [|split].
    + intro m. pose proof (proj1 (rest_dirac 1 1 0)) as D1. pose proof (proj1 (rest_dirac 1 Ci 0)) as D2. destruct m; [exact D1|exact D2| |];
      unfold dirac; apply vec_ext; intro; unfold mv, sum4, vsc, zero; ring.
    + intro a. unfold ip, spinor, zero. cbn [v4]. ring.
    + intro a. destruct a; unfold ip, mv, sum4, Gamma, square, spinor, zero; cbn [nth]; ring [ii].
  - refine (proj1 (proj2 (proj1 C81_maps (5/4)%R (3/4)%R _))). lra.
  - unfold boost_z, plane, same. rewrite <- !RtoC_mult, <- RtoC_plus. f_equal. lra.
Qed.
