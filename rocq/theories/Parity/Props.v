(** C98: finalStateParity is the sign of a decay under the inversion of space, and AMP with -1 is the amplitude of the inverted event. *)
From Verif.Common Require Import Prelude.
From Coq Require Import Reals Lra.
From Coquelicot Require Import Hierarchy Complex.
From Verif.Vertex Require Import Model Spec Algebra OrbitalProofs BosonProofs PropsOrbital.
From Verif.Parity Require Import Model Spec Proofs.
Local Open Scope C_scope.

(** The tensor of a decay for the inverted event is that of the event, seen in the inverted space, times finalStateParity, which is 1 or -1. *)
Theorem C98_inversion : forall d e v s, regular d -> spinTensor d e = Ok v -> finalStateParity d = Ok s ->
  (s = 1 \/ s = -1)%Z /\ spinTensor d (inverted e) = Ok (seen s v).
Proof. intros d e v s R H F. split; [now apply (parity_sign d)|now apply inversion]. Qed.
Print Assumptions C98_inversion.
(** Also a term that is symmetrised over identical products changes by that sign. *)
Theorem C98_term : forall t e a s, plain t -> finalStateParity (tree t) = Ok s -> expression t e = Ok a -> expression t (inverted e) = Ok (RtoC (IZR s) * a).
Proof. intros t e a s H1 H2 H3. exact (expression_inverted t s e a H1 H2 H3). Qed.
Print Assumptions C98_term.
(** AMP with 1 is the amplitude of the event; with -1, that of the inverted event; FCN likewise. *)
Theorem C98_AMP : forall ts e a, Forall plain ts ->
  (AMP ts e 1 = Ok a -> amplitude ts e = Ok a) /\ (AMP ts e (-1) = Ok a -> amplitude ts (inverted e) = Ok a) /\
  (forall n r, FCN n ts e (-1) = Ok r -> FCN n ts (inverted e) 1 = Ok r).
Proof.
  intros ts e a H. split; [apply AMP_plus|]. split; [intro E; now apply AMP_plus, AMP_minus|].
  intros n r E. unfold FCN in *. destruct (AMP ts e (-1)) as [x| | |] eqn:A; try discriminate. now rewrite (AMP_minus _ _ _ H A).
Qed.
Print Assumptions C98_AMP.

Lemma v4_plus a b c d x y z t : plus (v4 a b c d) (v4 x y z t) = v4 (a + x) (b + y) (c + z) (d + t).
Proof. apply vec_ext. intros []; unfold plus; cbn [v4]; now rewrite RtoC_plus. Qed.
Lemma v4_minus a b c d x y z t : minus (v4 a b c d) (v4 x y z t) = v4 (a - x) (b - y) (c - z) (d - t).
Proof. apply vec_ext. intros []; unfold minus; cbn [v4]; now rewrite RtoC_minus. Qed.
Lemma v4_nil : nil4 = v4 0 0 0 0.
Proof. apply vec_ext. intros []; reflexivity. Qed.
Lemma v4_eq a b c d x y z t : a = x -> b = y -> c = z -> d = t -> v4 a b c d = v4 x y z t. Proof. now intros -> -> -> ->. Qed.

Definition pi k := Stable 0 k.
(** D0 -> omega(782)0 pi0 with omega(782)0 -> pi+ pi- pi0, at rest. *)
Definition omega_pi := Two 0 1 0 (Three 2 (pi 0) (pi 1) (pi 2)) (pi 3).
Definition at_rest (k : nat) : vec := match k with 0 => v4 1 0 0 2 | 1 => v4 0 1 0 2 | 2 => v4 0 0 1 2 | _ => v4 (-1) (-1) (-1) 3 end.
Definition one : (nat -> vec) -> C := fun _ => 1.
Definition alone (d : decay) (bg inc : bool) : term := Term d 1 one ((RtoC 1, fun i => i) :: nil) bg inc.
Ltac numbers := rewrite <- ?RtoC_opp; repeat (rewrite <- ?RtoC_mult, <- ?RtoC_minus, <- ?RtoC_plus, <- ?RtoC_opp); f_equal; try lra.
Lemma omega_value : spinTensor omega_pi at_rest = Ok (Sc (RtoC (-12))).
Proof.
  cbn [spinTensor omega_pi pi bind twoSpin named call Nat.div Nat.divmod Nat.eqb fst snd]. do 2 f_equal. rewrite S_VS_P_eq, ip_sym, eps3_ip.
  unfold omega_pi, pi. cbn [P at_rest]. rewrite v4_nil, !v4_plus, v4_minus.
  erewrite (v4_eq _ _ _ _ 0 0 0 9) by lra. rewrite (proj1 (C79_rest 9 _ _ _ _ ltac:(lra))). unfold volume, det3. cbn [v4]. numbers.
Qed.
Example inversion_meets : regular omega_pi /\ spinTensor omega_pi at_rest = Ok (Sc (RtoC (-12))) /\ finalStateParity omega_pi = Ok (-1)%Z /\
  plain (alone omega_pi false false) /\ spinTensor omega_pi (inverted at_rest) <> spinTensor omega_pi at_rest.
Proof.
  assert (R : regular omega_pi) by (cbn; repeat split; lia). split; [exact R|]. split; [exact omega_value|]. split; [reflexivity|].
  split; [repeat split; try exact R; cbn; lia|]. rewrite (inversion _ _ R _ (-1)%Z omega_value eq_refl), omega_value. cbn [seen]. intro H.
  apply (f_equal (fun v => match v with Ok (Sc x) => Re x | _ => 0%R end)) in H. rewrite <- RtoC_mult in H. cbn in H. lra.
Qed.

(** For a particle with spin 3 that decays to three particles (omega(3)(1670)0 -> pi+ pi- pi0) the tensor is 1 and does not change sign, but finalStateParity is -1. *)
Theorem C98_spin3_refuted : exists d e v s, spinTensor d e = Ok v /\ finalStateParity d = Ok s /\ spinTensor d (inverted e) <> Ok (seen s v).
Proof.
  exists (Three 6 (pi 0) (pi 1) (pi 2)), at_rest, (Sc (RtoC 1)), (-1)%Z. split; [reflexivity|]. split; [reflexivity|]. intro H.
  apply (f_equal (fun v => match v with Ok (Sc x) => Re x | _ => 0%R end)) in H. cbn [seen] in H. rewrite <- RtoC_mult in H. cbn in H. lra.
Qed.
Print Assumptions C98_spin3_refuted.
(** For a particle with spin 1/2 that decays to three particles (Lambda(c)+ -> p K- pi+), (-1)^J is not a number and its conversion to int is undefined. *)
Theorem C98_half_refuted : exists d, d = Three 1 (Stable 1 0) (Stable 0 1) (Stable 0 2) /\ finalStateParity d = UB.
Proof. eexists. split; reflexivity. Qed.
Print Assumptions C98_half_refuted.
(** A term with the modifier BgSpin0 has no spin factor, but changes sign in AMP with -1. *)
Theorem C98_bgspin0_refuted : exists t e a, spinless (tree t) /\ regular (tree t) /\ invariant (propagator t) /\ inco t = false /\
  AMP (t :: nil) e (-1) = Ok a /\ amplitude (t :: nil) (inverted e) <> Ok a.
Proof.
  exists (alone omega_pi true false), at_rest, (RtoC (-1)). split; [reflexivity|]. split; [exact (proj1 inversion_meets)|]. split; [easy|]. split; [reflexivity|].
  assert (X : forall e, expression (alone omega_pi true false) e = Ok (RtoC 1)).
  { intro e. unfold expression, alone, one. cbn. rewrite sqrt_1. f_equal. field. try (intro K; apply RtoC_inj in K; lra). }
  cbn [AMP amplitude]. change (finalStateParity (tree (alone omega_pi true false))) with (Ok (-1)%Z). rewrite !X. cbn [bind Z.eqb coupling alone]. split.
  - f_equal. ring.
  - intro H. apply (f_equal (fun v => match v with Ok x => Re x | _ => 0%R end)) in H. cbn in H. lra.
Qed.
Print Assumptions C98_bgspin0_refuted.
(** A term with the modifier Inco is the root of a sum of squares, which inversion does not change, but changes sign in AMP with -1. *)
Theorem C98_inco_refuted : exists t e a, spinless (tree t) /\ regular (tree t) /\ invariant (propagator t) /\ bgSpin0 t = false /\
  AMP (t :: nil) e (-1) = Ok a /\ amplitude (t :: nil) (inverted e) <> Ok a.
Proof.
  exists (alone omega_pi false true), at_rest, (RtoC (-12)). pose proof (proj1 inversion_meets) as R.
  split; [reflexivity|]. split; [exact R|]. split; [easy|]. split; [reflexivity|].
  assert (X : forall e x, (x = 12 \/ x = -12)%R -> spinTensor omega_pi e = Ok (Sc (RtoC x)) -> expression (alone omega_pi false true) e = Ok (RtoC 12)).
  { intros e x Hx H. unfold expression, alone, one, total, spinFactor. cbn [orderings total spinFactor bgSpin0 tree propagator inco length].
    change (fun i : nat => e i) with e. rewrite H. cbn [bind]. do 2 f_equal.
    replace (Re _ / _)%R with (12 * 12)%R by (cbn; destruct Hx; subst x; field). apply sqrt_square. lra. }
  pose proof (inversion _ _ R _ (-1)%Z omega_value eq_refl) as V. cbn [seen] in V. rewrite <- RtoC_mult in V.
  cbn [AMP amplitude]. change (finalStateParity (tree (alone omega_pi false true))) with (Ok (-1)%Z).
  rewrite (X at_rest _ (or_intror eq_refl) omega_value), (X (inverted at_rest) (-1 * -12)%R ltac:(left; lra) V). cbn [bind Z.eqb coupling alone]. split.
  - f_equal. replace (-12)%R with (-1 * 12)%R by lra. rewrite RtoC_mult. ring.
  - intro H. apply (f_equal (fun v => match v with Ok x => Re x | _ => 0%R end)) in H. cbn in H. lra.
Qed.
Print Assumptions C98_inco_refuted.

(** V -> T S in D wave, the tensor to two scalars, the scalar to two vectors in P wave. *)
Definition rho4 k := Two 2 1 0 (pi k) (pi (S k)).
Definition vts := Two 2 2 0 (Two 4 2 0 (pi 0) (pi 1)) (Two 0 1 0 (rho4 2) (rho4 4)).
Definition vts_event (k : nat) : vec := match k with 0 => v4 2 0 11 13 | 1 => v4 (-2) 0 1 7 | _ => v4 0 0 (-3) 5 end.
Definition tensor_of (e : nat -> vec) : vec :=
  V_TS_D (P vts e) (minus (P (Two 4 2 0 (pi 0) (pi 1)) e) (P (Two 0 1 0 (rho4 2) (rho4 4)) e))
    (T_SS_D (P (Two 4 2 0 (pi 0) (pi 1)) e) (minus (e 0%nat) (e 1%nat)) 1 1) 1.
Lemma vts_value e : spinTensor vts e = Ok (Ve (tensor_of e)). Proof. reflexivity. Qed.
Lemma pwave_value : Orbital_PWave (v4 0 0 12 20) (v4 4 0 10 6) = v4 4 0 10 6.
Proof. apply vec_ext. intro i. unfold Orbital_PWave. rewrite !dot_ip, ip_v4. replace (20 * 6 - 0 * 4 - 0 * 0 - 12 * 10)%R with 0%R by lra. ring. Qed.
Lemma dwave_value : Orbital_DWave (v4 0 0 12 20) (v4 4 0 10 6) I0 I2 = RtoC 40.
Proof.
  unfold Orbital_DWave. rewrite pwave_value. unfold Spin1Projector, Metric4x4. cbn [v4]. rewrite <- RtoC_mult. replace (4 * 10)%R with 40%R by lra. unfold Cdiv. ring.
Qed.
Lemma w_value : on_right (tsc (1 * 1) (Orbital_DWave (v4 0 0 12 20) (v4 4 0 10 6))) (vsc (- (1)) (v4 0 0 24 0)) I0 = RtoC (24 * 40).
Proof. unfold on_right, ip, tsc. rewrite dwave_value. unfold vsc. cbn [v4]. rewrite RtoC_mult. ring. Qed.
Lemma tensor_value : exists x, tensor_of vts_event I1 = RtoC x /\ x <> 0%R.
Proof.
  unfold tensor_of. rewrite V_TS_D_eq, T_SS_D_eq. unfold vts, rho4, pi. cbn [P vts_event]. rewrite v4_nil, !v4_plus, !v4_minus.
  erewrite (v4_eq _ _ _ _ 0 0 0 40) by lra. rewrite (proj1 (C79_rest 40 _ _ _ _ ltac:(lra))).
  match goal with |- exists _, ?x I1 = _ /\ _ => set (w := x) end.
  assert (E : w I1 = - ip (v4 0 1 0 0) w) by (unfold ip; cbn [v4]; ring). rewrite E. unfold w. clear E w. rewrite eps3_ip.
  rewrite (v4_eq (0 + 2 + -2) _ _ _ 0 0 12 20) by lra. rewrite (v4_eq (2 - -2) _ _ _ 4 0 10 6) by lra.
  repeat match goal with |- context [v4 (0 + 2 + -2 - ?a) ?b ?c 0] => rewrite (v4_eq (0 + 2 + -2 - a) b c 0 0 0 24 0) by lra end.
  repeat match goal with |- context [v4 (0 + 2 + -2 - ?a) ?b ?c ?d] => rewrite (v4_eq (0 + 2 + -2 - a) b c d 0 0 24 0) by lra end.
  unfold volume, det3. rewrite w_value. cbn [v4]. exists (24 * 40 * (24 * 40))%R. split; [|lra]. rewrite !RtoC_mult. ring.
Qed.
(** The vertex of a vector to a tensor and a scalar in D wave does not use the tensor of the scalar: a scalar that itself changes sign is counted in
    finalStateParity only. *)
Theorem C98_scalar_refuted : exists d e v s, twoSpin d = 2%nat /\ spinTensor d e = Ok v /\ finalStateParity d = Ok s /\ spinTensor d (inverted e) <> Ok (seen s v).
Proof.
  exists vts, vts_event, (Ve (tensor_of vts_event)), 1%Z. split; [reflexivity|]. split; [reflexivity|]. split; [reflexivity|]. rewrite vts_value. intro H.
  assert (F : tensor_of (inverted vts_event) = vsc (- (1)) (app Maps.reflection (tensor_of vts_event))).
  { unfold tensor_of. rewrite !P_inverted, <- flip_minus. unfold inverted at 1 2. rewrite <- flip_minus, !flip_app.
    destruct (PropsBoson.C80_covariant _ _ _ Maps.reflection_lorentz (P (Two 4 2 0 (pi 0) (pi 1)) vts_event) (minus (vts_event 0%nat) (vts_event 1%nat))) as (A & _).
    cbv zeta in A. rewrite (proj2 (A 1 1)).
    match goal with |- V_TS_D (_ ?p) (_ ?q) (_ ?V) _ = _ => destruct (PropsBoson.C80_covariant _ _ _ Maps.reflection_lorentz p q) as (_ & _ & _ & B & _) end.
    cbv zeta in B. apply B. }
  rewrite F in H. destruct tensor_value as (x & X & N).
  apply (f_equal (fun v => match v with Ok (Ve w) => w I1 | _ => RtoC 0 end)) in H. cbn [seen] in H. unfold vsc in H. rewrite <- flip_app in H. unfold flip in H. rewrite X in H.
  apply N. apply (f_equal Re) in H. cbn in H. lra.
Qed.
Print Assumptions C98_scalar_refuted.
