(** C73: boosts and rotations of momenta, spinors and bispinors. *)
From Verif.Common Require Import Prelude.
From Coq Require Import Reals Lra.
From Verif.Kinematics Require Import Model Spec Proofs.
From Verif.Transform Require Import Model Spec Proofs SeqProofs.
Local Open Scope R_scope.

(** However a sequence was built, its cached matrices act as its transforms one after the other. *)
Theorem C73_acts_partial repr s v : built repr s -> (repr = Spinor -> transforms s <> []) -> List.length v = dimension repr ->
  apply s v repr = one_by_one (transforms s) v repr /\ exists w, apply s v repr = Ok w /\ List.length w = dimension repr.
Proof.
  intros B H L. rewrite (built_acts repr s v B H L). split; [reflexivity|]. now apply one_by_one_ok.
Qed.
Print Assumptions C73_acts_partial.

(** Sequences put together act in the order in which they were put together, in whichever of the ways it is done. *)
Theorem C73_order repr s s' t t' v : built repr s -> built repr s' -> (repr = Spinor -> transforms s <> [] /\ transforms s' <> []) -> List.length v = dimension repr ->
  apply (push_back s t) v repr = bind (apply s v repr) (fun w => apply1 t w repr) /\
  apply (push_back_all s s') v repr = bind (apply s v repr) (fun w => apply s' w repr) /\
  apply (join s s') v repr = bind (apply s v repr) (fun w => apply s' w repr) /\
  apply (pair_of t t') v repr = bind (apply1 t v repr) (fun w => apply1 t' w repr) /\
  apply (of_transform t) v repr = apply1 t v repr.
Proof.
  intros B B' H L. destruct (one_by_one_ok (transforms s) v repr L) as (w & W & Lw).
  assert (A : apply s v repr = Ok w) by (rewrite (built_acts repr s v B (fun E => proj1 (H E)) L); exact W).
  rewrite A. cbn [bind]. rewrite (built_acts repr s' w B' (fun E => proj2 (H E)) Lw).
  assert (N : forall x y : list transform, x <> [] -> x ++ y <> []) by (intros [|? ?] y Hx; [congruence|discriminate]).
  assert (O : forall u x, one_by_one [u] x repr = apply1 u x repr) by (intros; cbn; destruct (apply1 u x repr); reflexivity).
  repeat split.
  - rewrite built_acts; [|now constructor|intro E; apply N, (proj1 (H E))|exact L]. cbn [push_back buildCache transforms]. rewrite one_by_one_app, W. cbn [bind]. apply O.
  - rewrite built_acts; [|now constructor|intro E; apply N, (proj1 (H E))|exact L]. cbn [push_back_all buildCache transforms]. now rewrite one_by_one_app, W.
  - rewrite built_acts; [|now constructor|intro E; apply N, (proj1 (H E))|exact L]. cbn [join transforms]. now rewrite one_by_one_app, W.
  - rewrite built_acts; [|constructor|discriminate|exact L]. change (transforms (pair_of t t')) with ([t] ++ [t']). rewrite one_by_one_app, O.
    destruct (apply1 t v repr); cbn [bind]; [apply O|reflexivity..].
Qed.
Print Assumptions C73_order.

(** The inverse undoes a sequence, and the sequence its inverse, in every representation. *)
Theorem C73_inverse repr s v w : built repr s -> (repr = Spinor -> transforms s <> []) -> Forall valid (transforms s) -> List.length v = dimension repr ->
  (apply s v repr = Ok w <-> apply (inverse s) w repr = Ok v /\ List.length w = dimension repr).
Proof.
  intros B H F L. pose proof (inverse_transforms s) as [T _]. assert (H' : repr = Spinor -> transforms (inverse s) <> []).
  { intros E Z. apply (H E). rewrite T in Z. apply map_eq_nil in Z. rewrite <- (rev_involutive (transforms s)), Z. reflexivity. }
  assert (Fi : Forall valid (map inverse1 (rev (transforms s)))). { apply Forall_map. apply Forall_rev in F. eapply Forall_impl; [|exact F]. intros t. apply inverse1_valid. }
  rewrite (built_acts repr s v B H L). split.
  - intro W. assert (Lw : List.length w = dimension repr) by (destruct (one_by_one_ok (transforms s) v repr L) as (w' & W' & Lw'); congruence). split; [|exact Lw].
    rewrite (built_acts repr (inverse s) w (built_inverse repr s B) H' Lw), T. now apply one_by_one_inverse.
  - intros [W Lw]. rewrite (built_acts repr (inverse s) w (built_inverse repr s B) H' Lw), T in W. apply one_by_one_inverse in W; [|assumption|assumption].
    rewrite <- (map_rev inverse1 (rev (transforms s))), rev_involutive, map_map in W. rewrite <- W. f_equal. rewrite <- (map_id (transforms s)) at 1. apply map_ext. intro t. symmetry. apply inverse1_twice.
Qed.
Print Assumptions C73_inverse.

(** A rotation turns momenta about its axis by the angle whose cosine it was given. *)
Theorem C73_rotate t p : valid t -> kind t = Rotate ->
  exists q, apply1 t (vec p) Vector = Ok (vec q) /\ en q = en p /\ turned (axis t) (acos (arg t)) (vect p) (vect q).
Proof.
  intros V K. exists (act t p). split; [now apply apply1_vec|]. rewrite act_rotate by assumption. split; [reflexivity|]. apply turn1_turned. apply V.
Qed.
Print Assumptions C73_rotate.
(** A boost moves them against its axis with the velocity whose Lorentz factor it was given. *)
Theorem C73_boost t p : valid t -> kind t = Boost ->
  exists q v, apply1 t (vec p) Vector = Ok (vec q) /\ boosted (axis t) (- v) p q /\ 0 <= v /\ arg t * arg t * (1 - v * v) = 1.
Proof.
  intros V K. exists (act t p), (sqrt (arg t * arg t - 1) / arg t). split; [now apply apply1_vec|]. pose proof (boost_speed t V K) as S. pose proof V as [U A]. rewrite K in A. split; [|split].
  - rewrite act_boost by assumption. replace (- (sqrt (arg t * arg t - 1) / arg t)) with (- sqrt (arg t * arg t - 1) / arg t) by (field; lra). apply push_boosted; [exact U|lra|exact S].
  - apply Rmult_le_pos; [apply sqrt_pos|]. left. apply Rinv_0_lt_compat. lra.
  - etransitivity; [|exact S]. field. lra.
Qed.
Print Assumptions C73_boost.

(** A sequence takes momenta to momenta and keeps their invariant products. *)
Theorem C73_lorentz s p q : built Vector s -> Forall valid (transforms s) ->
  exists p' q', apply s (vec p) Vector = Ok (vec p') /\ apply s (vec q) Vector = Ok (vec q') /\ dot p' q' = dot p q.
Proof.
  intros B F. eexists; eexists. rewrite !built_acts by (first [exact B | discriminate | reflexivity]). rewrite !one_by_one_vec by exact F. split; [reflexivity|]. split; [reflexivity|]. now apply fold_act_dot.
Qed.
Print Assumptions C73_lorentz.

(** What a spinor carries is transformed as a momentum; the area of two spinors stays. *)
Theorem C73_spinor_partial s a b c d : built Spinor s -> built Vector s -> transforms s <> [] -> Forall valid (transforms s) ->
  exists a' b' c' d', apply s [a; b] Spinor = Ok [a'; b'] /\ apply s [c; d] Spinor = Ok [c'; d'] /\
    apply s (vec (current a b)) Vector = Ok (vec (current a' b')) /\ area a' b' c' d' = area a b c d.
Proof.
  intros B BV H F. destruct (spinor_steps _ F a b) as (a' & b' & E & C). destruct (spinor_steps _ F c d) as (c' & d' & E' & C'). exists a', b', c', d'.
  rewrite !(built_acts Spinor) by (first [exact B | reflexivity | intros _; exact H]). split; [exact E|]. split; [exact E'|]. split.
  - rewrite (built_acts Vector) by (first [exact BV | discriminate | reflexivity]). rewrite one_by_one_vec by exact F. now rewrite C.
  - exact (area_steps _ F _ _ _ _ _ _ _ _ E E').
Qed.
Print Assumptions C73_spinor_partial.

(** The matrix of a momentum, from the gamma matrices of the code: its product with a bispinor is transformed as a bispinor when the
    momentum is transformed as a vector. So solutions of the Dirac equation stay solutions. The product of bispinors stays. *)
Theorem C73_bispinor s p m a b c d a1 b1 c1 d1 : built Bispinor s -> built Vector s -> Forall valid (transforms s) ->
  exists p' a' b' c' d' a1' b1' c1' d1', apply s (vec p) Vector = Ok (vec p') /\ apply s [a; b; c; d] Bispinor = Ok [a'; b'; c'; d'] /\
    apply s [a1; b1; c1; d1] Bispinor = Ok [a1'; b1'; c1'; d1'] /\
    apply s (slash p a b c d) Bispinor = Ok (slash p' a' b' c' d') /\
    (slash p a b c d = map (cmul (cof m)) [a; b; c; d] <-> slash p' a' b' c' d' = map (cmul (cof m)) [a'; b'; c'; d']) /\
    bar a' b' c' d' a1' b1' c1' d1' = bar a b c d a1 b1 c1 d1.
Proof.
  intros B BV F. exists (fold_left (fun p t => act t p) (transforms s) p).
  assert (Ap : forall v, List.length v = 4%nat -> apply s v Bispinor = one_by_one (transforms s) v Bispinor) by (intros v L; apply built_acts; [exact B|discriminate|exact L]).
  destruct (one_by_one_ok (transforms s) [a; b; c; d] Bispinor eq_refl) as (w & W & Lw). destruct (list4 w Lw) as (a' & b' & c' & d' & ->).
  destruct (one_by_one_ok (transforms s) [a1; b1; c1; d1] Bispinor eq_refl) as (w & W1 & Lw1). destruct (list4 w Lw1) as (a1' & b1' & c1' & d1' & ->).
  exists a', b', c', d', a1', b1', c1', d1'. rewrite (built_acts Vector) by (first [exact BV | discriminate | reflexivity]). rewrite one_by_one_vec by exact F.
  assert (Ls : List.length (slash p a b c d) = 4%nat) by (unfold slash; destruct (sigma (vect p) a b), (sigma (vect p) c d); reflexivity). rewrite !Ap by (first [exact Ls | reflexivity]). pose proof (slash_steps _ F p _ _ _ _ _ _ _ _ W) as Sl.
  assert (Lin : one_by_one (transforms s) (map (cmul (cof m)) [a; b; c; d]) Bispinor = Ok (map (cmul (cof m)) [a'; b'; c'; d'])) by now apply one_by_one_scale.
  repeat (split; [first [reflexivity | assumption]|]). split; [|exact (bar_steps _ F _ _ _ _ _ _ _ _ _ _ _ _ _ _ _ _ W W1)]. split; intro E.
  - rewrite E, Lin in Sl. congruence.
  - rewrite E in Sl. pose proof (one_by_one_inverse _ _ _ Bispinor F Ls Sl) as I1. pose proof (one_by_one_inverse _ _ _ Bispinor F (eq_refl : List.length (map (cmul (cof m)) [a; b; c; d]) = dimension Bispinor) Lin) as I2. congruence.
Qed.
Print Assumptions C73_bispinor.
(** That matrix is E gamma_0 - p . gamma, with the matrices of the code. *)
Theorem C73_gamma p a b c d :
  mvec (madd (mscale (cof (en p)) Gamma3) (mscale (cof (-1)) (madd (madd (mscale (cof (vx (vect p))) Gamma0) (mscale (cof (vy (vect p))) Gamma1)) (mscale (cof (vz (vect p))) Gamma2)))) [a; b; c; d] = Ok (slash p a b c d) /\
  forall a' b' c' d', slash p a b c d = [a'; b'; c'; d'] -> slash p a' b' c' d' = map (cmul (cof (dot p p))) [a; b; c; d].
Proof.
  split; [exact (slash_gamma p a b c d)|]. intros a' b' c' d' E. unfold slash, sigma in *. injection E as <- <- <- <-. destruct p as [[x y z] e]. cbn [vect en vx vy vz map]. unfold dot, dot3. cbn [vect en vx vy vz].
  do 4 (apply (f_equal2 cons); [cx|]). reflexivity.
Qed.
Print Assumptions C73_gamma.

(** The transform of a decay product to its rest frame: with a boost it takes the momentum to rest, without one it turns it to the z axis. *)
Theorem C73_rest_partial P ve : ve = 1%Z \/ ve = (-1)%Z -> away (pT2 P) -> away (dot3 (vect P) (vect P)) ->
  (0 < dot P P -> 0 < en P -> apply (wick P (dot P P) true ve) (vec P) Vector = Ok (vec (P4 (V3 0 0 0) (sqrt (dot P P))))) /\
  forall mass2, apply (wick P mass2 false ve) (vec P) Vector = Ok (vec (P4 (V3 0 0 (mag (vect P))) (en P))).
Proof.
  intros Hve HT HP. split.
  - intros M E. destruct (wick_act P (dot P P) ve Hve HT HP true (fun _ => Logic.conj M (Logic.conj eq_refl E))) as (B & F & A). rewrite built_acts by (first [exact B | discriminate | reflexivity]). rewrite one_by_one_vec by exact F. now rewrite A.
  - intro mass2. destruct (wick_act P mass2 ve Hve HT HP false) as (B & F & A); [discriminate|]. rewrite built_acts by (first [exact B | discriminate | reflexivity]). rewrite one_by_one_vec by exact F. now rewrite A.
Qed.
Print Assumptions C73_rest_partial.

(** A spinor cannot be passed through a sequence without transforms: buildCache sets the two-dimensional identity for spinors and then, for want of
    an [else], replaces it by the four-dimensional one; the product reads past the two components of the spinor. The same holds for a sequence that
    an empty sequence was joined to. *)
Theorem C73_empty_refuted : exists v t, List.length v = dimension Spinor /\ valid t /\ one_by_one (transforms empty) v Spinor = Ok v /\ apply empty v Spinor = UB /\
  (exists w, one_by_one (transforms (join empty (of_transform t))) v Spinor = Ok w) /\ apply (join empty (of_transform t)) v Spinor = UB /\ apply (join (of_transform t) empty) v Spinor = UB.
Proof.
  exists [c1; c0], (Transform 1 (V3 0 0 1) Rotate). split; [reflexivity|]. split; [split; cbn; unfold dot3; cbn; lra|]. split; [reflexivity|]. split; [reflexivity|]. split; [|split; reflexivity].
  destruct (one_by_one_ok (transforms (join empty (of_transform (Transform 1 (V3 0 0 1) Rotate)))) [c1; c0] Spinor eq_refl) as (w & W & _). now exists w.
Qed.
Print Assumptions C73_empty_refuted.
(** A slow particle is not brought to rest: below a squared momentum of 1e-15 the angles are replaced by zero, so a momentum along x is boosted along z. *)
Theorem C73_rest_refuted : exists P w, 0 < dot P P /\ 0 < en P /\ apply (wick P (dot P P) true 1) (vec P) Vector = Ok (vec w) /\ vx (vect P) > 0 /\ vx (vect w) = vx (vect P).
Proof.
  set (P := P4 (V3 (/ 10 ^ 8) 0 0) 1). assert (E : / 10 ^ 8 * / 10 ^ 8 = / 10 ^ 16) by (rewrite <- Rinv_mult; f_equal; ring). assert (L : / 10 ^ 16 < / 10 ^ 15) by (apply Rinv_lt_contravar; lra).
  assert (L1 : / 10 ^ 15 < 1) by (rewrite <- Rinv_1; apply Rinv_lt_contravar; lra). assert (L0 : 0 < / 10 ^ 16) by (apply Rinv_0_lt_compat; lra).
  assert (D : dot P P = 1 - / 10 ^ 16) by (unfold dot, dot3, P; cbn [vect en vx vy vz]; lra). assert (Dp : 0 < dot P P) by lra. 
  assert (S : sqrt (dot P P) <= 1) by (rewrite <- sqrt_1; apply sqrt_le_1_alt; lra). assert (Sp : 0 < sqrt (dot P P)) by now apply sqrt_lt_R0.
  set (t1 := Transform 1 (V3 0 (-1) 0) Rotate). set (t2 := Transform (1 / sqrt (dot P P)) (V3 0 0 1) Boost).
  assert (V1 : valid t1) by (split; cbn; unfold dot3; cbn; lra). assert (V2 : valid t2). { split; cbn; [unfold dot3; cbn; lra|]. apply Rmult_le_reg_r with (sqrt (dot P P)); [exact Sp|]. unfold Rdiv. rewrite Rmult_assoc, Rinv_l; lra. }
  assert (W : wick P (dot P P) true 1 = join (of_transform t1) (of_transform t2)).
  { unfold wick. cbv zeta. cbn [Z.eqb Pos.eqb]. assert (px : vx (vect P) = / 10 ^ 8) by reflexivity. assert (py : vy (vect P) = 0) by reflexivity. assert (pz : vz (vect P) = 0) by reflexivity. rewrite px, py, pz.
    destruct (Rlt_dec _ (_ + 0 * 0)) as [C|_]; [lra|]. destruct (Rlt_dec _ _) as [C|_]; [lra|]. f_equal. f_equal. unfold t1. f_equal. v3. }
  exists P, (act t2 (act t1 P)). split; [exact Dp|]. split; [cbn; lra|]. split.
  - rewrite W, (built_acts Vector); [|repeat constructor; discriminate|discriminate|reflexivity]. cbn [transforms join of_transform buildCache app]. now rewrite one_by_one_vec by (constructor; [exact V1|constructor; [exact V2|constructor]]).
  - split; [unfold P; cbn [vect vx]; apply Rinv_0_lt_compat; lra|]. unfold act, t1, t2. cbn [kind axis arg]. set (g := sqrt (1 / _ * _ - 1)). clearbody g. generalize (1 / sqrt (dot P P)) as h. intro h. unfold pushS, turnCS, P, add3, scale, cross, dot3. cbn [vect vx vy vz]. ring.
Qed.
Print Assumptions C73_rest_refuted.

(** Examples: a turn by a third of a right angle's cosine and a boost *)
Example C73_ex : exists t t', valid t /\ valid t' /\ kind t = Rotate /\ kind t' = Boost /\ built Spinor (join (push_back (of_transform t) t') (inverse (pair_of t' t))) /\
  transforms (join (push_back (of_transform t) t') (inverse (pair_of t' t))) = [t; t'; inverse1 t; inverse1 t'] /\
  Forall valid (transforms (join (push_back (of_transform t) t') (inverse (pair_of t' t)))).
Proof.
  set (t := Transform (1 / 2) (V3 (3 / 5) 0 (4 / 5)) Rotate). set (t' := Transform (5 / 3) (V3 0 0 1) Boost). exists t, t'.
  assert (V : valid t) by (split; cbn; unfold dot3; cbn; lra). assert (V' : valid t') by (split; cbn; unfold dot3; cbn; lra). do 4 (split; [first [assumption | reflexivity]|]). split.
  - apply built_join; [apply built_push, built_of|apply built_inverse, built_pair|intros _; split; discriminate].
  - split; [reflexivity|]. cbn. repeat (constructor; [first [assumption | now apply inverse1_valid]|]). constructor.
Qed.
Example C73_ex_boost : act (Transform (5 / 3) (V3 0 0 1) Boost) (P4 (V3 0 0 4) 5) = P4 (V3 0 0 0) 3.
Proof.
  unfold act. cbn [kind axis arg]. replace (sqrt (5 / 3 * (5 / 3) - 1)) with (4 / 3). - apply p4_eq; unfold pushS, add3, scale, dot3; cbn [en vect vx vy vz]; [apply v3_eq; cbn [vx vy vz]|]; lra.
  - symmetry. replace (5 / 3 * (5 / 3) - 1) with (4 / 3 * (4 / 3)) by lra. apply sqrt_square. lra.
Qed.
Example C73_ex_rest : away (pT2 (P4 (V3 2 1 2) 5)) /\ away (dot3 (V3 2 1 2) (V3 2 1 2)) /\ 0 < dot (P4 (V3 2 1 2) 5) (P4 (V3 2 1 2) 5).
Proof.
  assert (L1 : / 10 ^ 15 < 1) by (rewrite <- Rinv_1; apply Rinv_lt_contravar; lra). unfold away, pT2, dot, dot3. cbn [vect en vx vy vz]. repeat split; try right; lra.
Qed.
