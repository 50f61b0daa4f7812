(** C94: the spin states of the particles at the ends of a decay. *)
From Verif.Common Require Import Prelude.
From Coq Require Import Reals ZArith Lra Field FunctionalExtensionality.
From Coquelicot Require Import Hierarchy Complex.
From Verif.Vertex Require Import Model Spec Algebra.
From Verif.External Require Import Model Spec Proofs Weyl Spinors Rates Photon.
Local Open Scope R_scope.

(** In the Dirac basis the three states of a vector are orthonormal, transverse and complete, and are the states of a particle at
    rest, boosted. *)
Theorem C94_vectors : forall p m id, on_shell p m ->
  exists e, (forall s, In s (1 :: 0 :: -1 :: nil)%Z -> externalSpinTensor Dirac 2 id m p s = Four (e s) /\ e s = boosted_vector p m (rest_vector s)) /\ vector_states p m e.
Proof.
  intros p m id H. exists (dv m p). split; [|now apply dirac_vectors]. intros s I. split; [destruct I as [<-|[<-|[<-|[]]]]; reflexivity|].
  apply vec_ext. now apply dv_boost.
Qed.
Print Assumptions C94_vectors.
(** In the Weyl basis they are orthonormal, transverse and complete; away from the third axis, and along its positive direction,
    state s is the one of helicity s. *)
Theorem C94_helicity_vectors : forall p m id, on_shell p m -> clear_of_axis p ->
  exists e, (forall s, In s (1 :: 0 :: -1 :: nil)%Z -> externalSpinTensor Weyl 2 id m p s = Four (e s) /\
      (tiny < px p * px p + py p * py p \/ tiny < pz p -> helicity_vector p (IZR s) (e s))) /\ vector_states p m e.
Proof.
  intros p m id H C. exists (wv m p). split; [|now apply weyl_vectors]. intros s I. split; [destruct I as [<-|[<-|[<-|[]]]]; reflexivity|].
  destruct H as (Hm & _). intro D. destruct C as [G|(X & Y & Z)].
  - now apply weyl_helicity_generic.
  - destruct D as [G|D]; [now apply weyl_helicity_generic|].
    assert (Z' : tiny < Rabs (pz p)). { unfold tiny in *. rewrite Rabs_right; lra. }
    pose proof (weyl_helicity_axis p m s X Y Z' Hm I) as W. unfold tiny in *. destruct (Rlt_dec 0 (pz p)); [exact W|lra].
Qed.
Print Assumptions C94_helicity_vectors.
(** In the Dirac basis the two states of a fermion, or of an antifermion, solve its Dirac equation, are normalised and orthogonal,
    sum to the projector, and are the states of a particle at rest, boosted. *)
Theorem C94_spinors : forall p m id, on_shell p m -> id <> 0%Z ->
  exists u, (forall s, In s (1 :: -1 :: nil)%Z -> externalSpinTensor Dirac 1 id m p s = Four (u s) /\ u s = boosted_spinor (Z.sgn id) p m (rest_spinor (Z.sgn id) s)) /\
    spinor_states (Z.sgn id) p m u.
Proof.
  intros p m id H Hid. exists (ds id m p). split; [|now apply dirac_spinors_ex]. intros s I. split.
  - destruct id; [congruence| |]; destruct I as [<-|[<-|[]]]; reflexivity.
  - apply vec_ext. now apply ds_boost.
Qed.
Print Assumptions C94_spinors.
(** In the Weyl basis they do so too, and the spin along the momentum of the bispinor with label s is s/2. *)
Theorem C94_helicity_spinors : forall p m id, on_shell p m -> clear_of_minus_z p -> id <> 0%Z ->
  exists u, (forall s, In s (1 :: -1 :: nil)%Z -> externalSpinTensor Weyl 1 id m p s = Four (u s) /\ helicity_spinor p (IZR s) (u s)) /\
    spinor_states (Z.sgn id) p m u.
Proof.
  intros p m id H C Hid. exists (ws id m p). split; [|now apply weyl_spinors]. intros s I. split.
  - destruct id; [congruence| |]; destruct I as [<-|[<-|[]]]; reflexivity.
  - now apply weyl_spin_along.
Qed.
Print Assumptions C94_helicity_spinors.
(** In both bases, the charge conjugate of the state s of a fermion is, up to a phase, the state with label -s of its
    antiparticle. *)
Theorem C94_conjugate : forall b p m n s u v, (b = Weyl -> clear_of_minus_z p) -> (0 < n)%Z -> In s (1 :: -1 :: nil)%Z ->
  externalSpinTensor b 1 n m p s = Four u -> externalSpinTensor b 1 (- n) m p (- s) = Four v ->
  exists c, Cmod c = 1 /\ conjugate_spinor u = vsc c v.
Proof.
  intros b p m n s u v Hb Hn I Hu Hv. destruct b.
  - exists (RtoC (IZR s)). split. { destruct I as [<-|[<-|[]]]; rewrite Cmod_R; [apply Rabs_R1|rewrite Rabs_left; lra]. }
    assert (Eu : u = ds n m p s). { destruct n; try lia. destruct I as [<-|[<-|[]]]; cbn in Hu; injection Hu as <-; reflexivity. }
    assert (Ev : v = ds (- n) m p (- s)). { destruct n; try lia. destruct I as [<-|[<-|[]]]; cbn in Hv; injection Hv as <-; reflexivity. }
    subst u v. apply vec_ext. now apply ds_conj.
  - exists (- RtoC (IZR s) * Ci)%C. split. { rewrite Cmod_mult, Cmod_opp, Cmod_R. replace (Cmod Ci) with 1. - destruct I as [<-|[<-|[]]]; [rewrite Rabs_R1|rewrite Rabs_left]; lra. - unfold Cmod, Ci. cbn [fst snd]. replace (0 ^ 2 + 1 ^ 2) with 1 by ring. symmetry. apply sqrt_1. }
    assert (Eu : u = ws n m p s). { destruct n; try lia. destruct I as [<-|[<-|[]]]; cbn in Hu; injection Hu as <-; reflexivity. }
    assert (Ev : v = ws (- n) m p (- s)). { destruct n; try lia. destruct I as [<-|[<-|[]]]; cbn in Hv; injection Hv as <-; reflexivity. }
    subst u v. apply vec_ext. intro a. unfold vsc. apply ws_conj; [now apply Hb|exact Hn|exact I].
Qed.
Print Assumptions C94_conjugate.
(** The rate summed over the states of the decaying particle does not depend on the basis that is chosen, whatever the spin
    tensor of the decay. *)
Theorem C94_basis : forall twoSpin p m id st, (twoSpin = 1 \/ twoSpin = 2)%Z -> on_shell p m -> clear_of_axis p -> clear_of_minus_z p -> id <> 0%Z -> id <> 22%Z ->
  exists t, total_rate (spinFactor Dirac twoSpin id m p st) (polarisations twoSpin id) = Some t /\
    total_rate (spinFactor Weyl twoSpin id m p st) (polarisations twoSpin id) = Some t.
Proof.
  intros twoSpin p m id st T H C1 C2 Hid Hp. assert (E : (id =? 22)%Z = false) by now apply Z.eqb_neq.
  destruct T as [->| ->]; unfold polarisations; rewrite E; cbn [Z.eqb Pos.eqb].
  - now apply basis_spinor.
  - now apply basis_vector.
Qed.
Print Assumptions C94_basis.
(** For a photon, and a current that is conserved, the two helicities of the Weyl basis give minus the square of the current. *)
Theorem C94_photon : forall p m st, light_like p -> clear_of_axis p -> ip (P4 p) st = RtoC 0 ->
  exists t, total_rate (spinFactor Weyl 2 22 m p st) (polarisations 2 22) = Some t /\ RtoC t = (- ip (cbar st) st)%C.
Proof. exact photon_rate. Qed.
Print Assumptions C94_photon.
(** The states listed for a particle of spin 0, 1/2, 1 and 2 are kept when they are set, and a state above the spin is replaced by 999. *)
Theorem C94_states : forall twoSpin id s, In twoSpin (0 :: 1 :: 2 :: 4 :: nil)%Z -> (id = 22 -> twoSpin = 2)%Z ->
  (In s (polarisations twoSpin id) -> setPolarisationState twoSpin s = s) /\
  ((forall t, In t (polarisations twoSpin id) -> (s > t)%Z) -> setPolarisationState twoSpin s = 999%Z).
Proof.
  intros twoSpin id s I Ph. unfold polarisations. split.
  - destruct I as [<-|[<-|[<-|[<-|[]]]]]; cbn [Z.eqb Pos.eqb]; try destruct (id =? 22)%Z; intro J; repeat destruct J as [<-|J]; try destruct J; reflexivity.
  - destruct I as [<-|[<-|[<-|[<-|[]]]]]; cbn [Z.eqb Pos.eqb]; try (destruct (Z.eqb_spec id 22) as [E|E]; [try (specialize (Ph E); discriminate)|]);
      intro J; pose proof (J _ (or_introl eq_refl)) as K; unfold setPolarisationState; cbn;
      match goal with |- context[(s >? ?k)%Z] => replace (s >? k)%Z with true by (symmetry; apply Z.gtb_lt; lia) end; reflexivity.
Qed.
Print Assumptions C94_states.
(** A particle of half-integer spin has no state 0. *)
Theorem C94_no_state : forall n, (0 <= n)%Z -> setPolarisationState (2 * n + 1) 0 = 999%Z.
Proof.
  intros n H. unfold setPolarisationState, isFermion. rewrite Z.rem_mod_nonneg by lia. replace ((2 * n + 1) mod 2)%Z with 1%Z; [rewrite orb_true_r; reflexivity|].
  apply Z.mod_unique_pos with n; lia.
Qed.
Print Assumptions C94_no_state.

Definition forwards : mom := {| px := 0; py := 0; pz := 3; en := 5 |}.
Definition backwards : mom := {| px := 0; py := 0; pz := -3; en := 5 |}.
Lemma shell_f : on_shell forwards 4. Proof. unfold on_shell, forwards; cbn; lra. Qed.
Lemma shell_b : on_shell backwards 4. Proof. unfold on_shell, backwards; cbn; lra. Qed.
Lemma pP_f : pP forwards = 3. Proof. unfold pP, forwards; cbn. replace (0 * 0 + 0 * 0 + 3 * 3) with (Rsqr 3) by (unfold Rsqr; ring). apply sqrt_Rsqr. lra. Qed.
Lemma pP_b : pP backwards = 3. Proof. unfold pP, backwards; cbn. replace (0 * 0 + 0 * 0 + -3 * -3) with (Rsqr 3) by (unfold Rsqr; ring). apply sqrt_Rsqr. lra. Qed.
Lemma N_pos : 0 < sqrt ((5 + 4) / (2 * 4)). Proof. apply sqrt_lt_R0. lra. Qed.

(** A fermion that moves along the negative third axis is given the spinors of a fermion that moves along the positive one with the
    lower half of the one that moves along the negative one: they do not solve its Dirac equation. *)
Theorem C94_backwards_refuted : exists p m v, on_shell p m /\ externalSpinTensor Weyl 1 2212 m p 1 = Four v /\ ~ dirac (RtoC 1) (P4 p) m v.
Proof.
  exists backwards, 4. eexists. split; [exact shell_b|]. split; [reflexivity|]. intro D. apply (f_equal (fun f => f I0)) in D. revert D.
  unfold xi, Ternary. destruct (aligned backwards) as [_|N]; [|exfalso; apply N; rewrite pP_b; cbn; rewrite Rabs_right; unfold tiny; lra].
  gammas. rewrite pP_b. cbn [en backwards fst snd px py pz]. pose proof N_pos as HN. set (N := sqrt _) in *. clearbody N.
  intro D. apply (f_equal fst) in D. cbn in D. lra.
Qed.
Print Assumptions C94_backwards_refuted.
(** A vector that moves exactly along the negative third axis, or within 1 MeV of it, is given the state of helicity -1 for the label +1,
    although for directions close to it, but further away than that, the label +1 is the helicity. *)
Theorem C94_backwards_vector_refuted : exists p m id v, on_shell p m /\ clear_of_axis p /\ externalSpinTensor Weyl 2 id m p 1 = Four v /\
  helicity_vector p (-1) v /\ ~ helicity_vector p 1 v.
Proof.
  exists backwards, 4, 443%Z, (wv 4 backwards 1). split; [exact shell_b|].
  assert (A : tiny < Rabs (pz backwards)). { cbn. rewrite Rabs_left; unfold tiny; lra. }
  split. { right. repeat split. right. exact A. }
  split; [reflexivity|].
  assert (W : helicity_vector backwards (-1) (wv 4 backwards 1)).
  { pose proof (weyl_helicity_axis backwards 4 1 eq_refl eq_refl A ltac:(lra) ltac:(now left)) as W. cbn [pz backwards] in W. destruct (Rlt_dec 0 (-3)); [lra|exact W]. }
  split; [exact W|]. intros (H1 & _). destruct W as (W1 & _). rewrite W1 in H1.
  assert (L : length3 backwards = 3) by exact pP_b. rewrite L in H1.
  assert (V : wv 4 backwards 1 I0 = RtoC (/ sqrt 2)).
  { destruct (axis backwards eq_refl eq_refl (or_intror A)) as (c & _ & _ & Ec & _ & Cm).
    unfold wv, weyl_vector. cbn [Z.eqb Pos.eqb four]. rewrite Ec, Cm by (cbn; unfold tiny; lra). unfold zz, backwards. cbn [px py pz]. unfold Rdiv. rewrite Rmult_1_l. rewrite RtoC_opp, RtoC_m1. ring. }
  rewrite V in H1. pose proof (Rinv_0_lt_compat _ (sqrt_lt_R0 2 ltac:(lra))) as Q. apply (f_equal fst) in H1. cbn in H1. nra.
Qed.
Print Assumptions C94_backwards_vector_refuted.
(** A vector whose momentum is within 1 MeV of the third axis, but not along it, has states that are not normalised in the Weyl
    basis. *)
Theorem C94_near_axis_refuted : exists p m id v, on_shell p m /\ externalSpinTensor Weyl 2 id m p 1 = Four v /\ ip (cbar v) v <> (- RtoC 1)%C.
Proof.
  exists {| px := 3 / 10000; py := 0; pz := 4 / 10000; en := 13 / 10000 |}, (12 / 10000), 443%Z. eexists.
  split. { unfold on_shell; cbn; lra. }
  split; [reflexivity|].
  set (p := Build_mom _ _ _ _).
  assert (P : pP p = 5 / 10000). { unfold pP, p; cbn. replace (3 / 10000 * (3 / 10000) + 0 * 0 + 4 / 10000 * (4 / 10000)) with (Rsqr (5 / 10000)) by (unfold Rsqr; field). apply sqrt_Rsqr. lra. }
  assert (F : ff p = 0). { unfold ff, invPT2, Ternary. destruct (Rlt_dec _ _) as [L|_]; [exfalso; unfold tiny, p in L; cbn in L; lra|ring]. }
  assert (I : invP p = 2000). { unfold invP, Ternary. rewrite P. destruct (Rlt_dec _ _) as [_|L]; [field|exfalso; apply L; unfold tiny; lra]. }
  assert (Z : pZoverP p = 4 / 5). { unfold pZoverP, Ternary. rewrite P. destruct (Rlt_dec _ _) as [_|L]; [unfold p; cbn; field|exfalso; apply L; unfold tiny; lra]. }
  rewrite F, I, Z. unfold ip, cbar, four, zz. unfold p. cbn [px py pz]. pose proof half_of_2 as Hr. unfold Rdiv at 1 3 5 7 9. rewrite ?Rmult_1_l. 
  intro E. apply (f_equal fst) in E. cbn in E. replace (1 / sqrt 2) with (/ sqrt 2) in E by (unfold Rdiv; ring). set (r := / sqrt 2) in *. clearbody r. nra.
Qed.
Print Assumptions C94_near_axis_refuted.
(** States below minus the spin are not refused when they are set; and the bispinor of the Weyl basis is filled for any number, also for
    the 999 that marks an invalid state, and is then not a state of the particle. *)
Theorem C94_invalid_refuted : (exists twoSpin s, ~ In s (polarisations twoSpin 2212) /\ setPolarisationState twoSpin s = s /\ (s < - twoSpin)%Z) /\
  (exists p m s v, on_shell p m /\ clear_of_minus_z p /\ (s > 1)%Z /\ externalSpinTensor Weyl 1 2212 m p (setPolarisationState 1 s) = Four v /\ ~ dirac (RtoC 1) (P4 p) m v).
Proof.
  split. { exists 1%Z, (-3)%Z. split; [|split; [reflexivity|lia]]. cbn. intros [E|[E|[]]]; discriminate. }
  exists forwards, 4, 5%Z. eexists. split; [exact shell_f|]. split. { left. assert (L : length3 forwards = 3) by exact pP_f. rewrite L. unfold tiny. cbn. lra. }
  split; [lia|]. split; [reflexivity|]. intro D. apply (f_equal (fun f => f I1)) in D. revert D.
  unfold xi, Ternary. cbn [Z.eqb Pos.eqb]. destruct (aligned forwards) as [A|_]; [exfalso; rewrite pP_f in A; cbn in A; rewrite Rabs_right in A; unfold tiny in A; lra|].
  assert (X : xi_norm forwards * (pP forwards + pz forwards) = 1).
  { unfold xi_norm. rewrite pP_f. cbn [pz forwards]. replace (2 * 3 * (3 + 3)) with (Rsqr 6) by (unfold Rsqr; ring). rewrite sqrt_Rsqr by lra. field. }
  gammas. cbn [fst snd]. rewrite X, pP_f. cbn [en forwards px py pz]. pose proof N_pos as HN. set (N := sqrt _) in *. clearbody N. set (n := xi_norm forwards). clearbody n.
  intro D. apply (f_equal fst) in D. cbn in D. lra.
Qed.
Print Assumptions C94_invalid_refuted.
(** Particles of spin 2 are said to have five states, but there is no spin tensor for any of them. *)
Theorem C94_tensor_refuted : exists twoSpin id, polarisations twoSpin id = (2 :: 1 :: 0 :: -1 :: -2 :: nil)%Z /\ forall b m p s, externalSpinTensor b twoSpin id m p s = Missing.
Proof. exists 4%Z, 225%Z. split; [reflexivity|]. reflexivity. Qed.
Print Assumptions C94_tensor_refuted.
(** The mass is the one of the table, not that of the momentum: a particle off its mass shell has states that are not transverse. *)
Theorem C94_off_shell_refuted : exists p m id v, 0 < m /\ 0 < en p /\ externalSpinTensor Dirac 2 id m p 0 = Four v /\ ip (P4 p) v <> RtoC 0.
Proof.
  exists forwards, 1, 443%Z. eexists. split; [lra|]. split; [cbn; lra|]. split; [reflexivity|].
  unfold ip, P4, four, forwards. cbn [px py pz en]. intro E. apply (f_equal fst) in E. cbn in E. lra.
Qed.
Print Assumptions C94_off_shell_refuted.
(** The label of a state means opposite spins for a particle and its antiparticle: the charge conjugate of the state +1 of a particle is
    not, whatever the phase, the state +1 of the antiparticle. *)
Theorem C94_antiparticle_refuted : exists p m u v, on_shell p m /\ externalSpinTensor Dirac 1 3122 m p 1 = Four u /\ externalSpinTensor Dirac 1 (-3122) m p 1 = Four v /\
  forall c, conjugate_spinor u <> vsc c v.
Proof.
  exists {| px := 0; py := 0; pz := 0; en := 1 |}, 1. eexists. eexists. split; [unfold on_shell; cbn; lra|]. split; [reflexivity|]. split; [reflexivity|].
  intros c E. apply (f_equal (fun f => f I3)) in E. revert E. unfold conjugate_spinor, cbar. gammas. assert (HN : 0 < sqrt ((1 + 1) / (2 * 1))) by (apply sqrt_lt_R0; lra).
  set (N := sqrt _) in *. clearbody N. intro E. apply (f_equal fst) in E. cbn in E. lra.
Qed.
Print Assumptions C94_antiparticle_refuted.

(** A J/psi that moves across the axis, and a Lambda. *)
Definition across : mom := {| px := 3; py := 0; pz := 0; en := 5 |}.
Example vectors_meet : on_shell across 4 /\ clear_of_axis across /\ clear_of_minus_z across /\ light_like {| px := 3; py := 0; pz := 4; en := 5 |}.
Proof.
  assert (L : length3 across = 3). { unfold length3, across; cbn. replace (3 * 3 + 0 * 0 + 0 * 0) with (Rsqr 3) by (unfold Rsqr; ring). apply sqrt_Rsqr. lra. }
  repeat split; try (cbn; lra). - left. unfold tiny. cbn. lra. - left. rewrite L. unfold tiny. cbn. lra.
Qed.
(** A conserved current of that photon. *)
Example photon_meets : ip (P4 {| px := 3; py := 0; pz := 4; en := 5 |}) (four (RtoC 4) Ci (RtoC (-3)) (RtoC 0)) = RtoC 0.
Proof. unfold ip, P4, four. cbn [px py pz en]. parts; ring. Qed.
(** Bispinors of a Lambda and of an anti-Lambda, in both bases. *)
Example conjugates_meet : forall b, exists u v, externalSpinTensor b 1 3122 4 across 1 = Four u /\ externalSpinTensor b 1 (-3122) 4 across (-1) = Four v.
Proof. intros []; eexists; eexists; split; reflexivity. Qed.
(** State 2 of a J/psi is above its spin, state 1 is not. *)
Example states_meet : (forall t, In t (polarisations 2 443) -> (2 > t)%Z) /\ In 1%Z (polarisations 2 443).
Proof. split; [|now left]. cbn. intros t [<-|[<-|[<-|[]]]]; lia. Qed.
