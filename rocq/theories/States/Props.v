From Verif.Common Require Import Prelude.
From Coq Require Import Reals ZArith Lra FunctionalExtensionality.
From Coquelicot Require Import Hierarchy Complex.
From Verif.Vertex Require Import Model Spec Algebra.
From Verif.External Require Import Model Spec Proofs Spinors.
From Verif.States Require Import Model Spec Proofs.
From Verif.External Require Props.
Local Open Scope R_scope.

(** A massive particle of spin 1: whatever the frame in which it is at rest, the overlaps with the three projections keep the product of two states. *)
Theorem C111_vector : forall A B p m id v w, moves A B p (at_rest_ m) -> m <> 0 -> ip (P4 p) v = RtoC 0 -> ip (P4 p) w = RtoC 0 ->
  summed (overlap 2 id B) (2 :: 0 :: -2 :: nil)%Z v w = Some (- ip (cbar v) w)%C.
Proof.
  intros A B p m id v w F M V W. apply (momentum_A A B p _ v F) in V. apply (momentum_A A B p _ w F) in W. apply rest_time in V; [|exact M]. apply rest_time in W; [|exact M].
  destruct (three_states _ _ V W) as (e & f & g & E1 & E2 & E3 & S). cbn [summed]. unfold overlap. cbn [Z.eqb Pos.eqb].
  change (Z.quot 2 2) with 1%Z. change (Z.quot 0 2) with 0%Z. change (Z.quot (-2) 2) with (-1)%Z. rewrite E1, E2, E3, !(overlap_frame A B p _ _ _ F). f_equal. rewrite S.
  now rewrite (conj_A A B p _ v w F).
Qed.
Print Assumptions C111_vector.

(** In particular the overlaps of three states as those of externalSpinTensor (C94) are a unitary matrix. *)
Theorem C111_unitary : forall A B p m id e s t, moves A B p (at_rest_ m) -> m <> 0 -> vector_states p m e -> In s (1 :: 0 :: -1 :: nil)%Z -> In t (1 :: 0 :: -1 :: nil)%Z ->
  summed (overlap 2 id B) (2 :: 0 :: -2 :: nil)%Z (e s) (e t) = Some (delta s t).
Proof. intros A B p m id e s t F M (T & O & _) S U. rewrite (C111_vector A B p m id _ _ F M (T s S) (T t U)). f_equal. rewrite (O s t S U). ring. Qed.
Print Assumptions C111_unitary.

(** Summed over the states of the particle instead: different projections do not interfere, and each has rate one. *)
Theorem C111_complete : forall A B p m id e M N, moves A B p (at_rest_ m) -> vector_states p m e ->
  In M (2 :: 0 :: -2 :: nil)%Z -> In N (2 :: 0 :: -2 :: nil)%Z -> exists o o', (forall s, overlap 2 id B M (e s) = Some (o s)) /\ (forall s, overlap 2 id B N (e s) = Some (o' s)) /\
  (o 1%Z * Cconj (o' 1%Z) + o 0%Z * Cconj (o' 0%Z) + o (-1)%Z * Cconj (o' (-1)%Z))%C = delta M N.
Proof.
  intros A B p m id e M N F (_ & _ & K) HM HN. pose proof F as (_ & L & I & Q).
  assert (G : forall f f', ip (at_rest_ m) f = RtoC 0 -> (dot (cbar (mv B f)) (e 1%Z) * Cconj (dot (cbar (mv B f')) (e 1%Z)) + dot (cbar (mv B f)) (e 0%Z) * Cconj (dot (cbar (mv B f')) (e 0%Z)) +
    dot (cbar (mv B f)) (e (-1)%Z) * Cconj (dot (cbar (mv B f')) (e (-1)%Z)))%C = (- ip (cbar f) f')%C).
  { intros f f' T. set (b := mv B f) in *. set (b' := mv B f') in *.
    assert (O : ip (P4 p) b = RtoC 0) by (rewrite <- L, Q; unfold b; now rewrite I).
    assert (O' : ip (cbar b) (P4 p) = RtoC 0).
    { apply (f_equal Cconj) in O. revert O. unfold ip, cbar, P4. push. intro O. etransitivity; [|exact O]. ring. }
    assert (E : ip (cbar f) f' = ip (cbar b) b') by (rewrite <- (conj_A A B p _ b b' F); unfold b, b'; now rewrite !I). rewrite E.
    set (k := RtoC (1 / (m * m))) in *.
    transitivity (sum4 (fun i => sum4 (fun j => (sgn i * sgn j * Cconj (b i) * b' j * (e 1%Z i * Cconj (e 1%Z j) + e 0%Z i * Cconj (e 0%Z j) + e (-1)%Z i * Cconj (e (-1)%Z j)))%C))).
    - unfold dot, sum4, sgn, cbar. push. rewrite !conj2. ring.
    - transitivity (sum4 (fun i => sum4 (fun j => (sgn i * sgn j * Cconj (b i) * b' j * (- metric i j + P4 p i * P4 p j * k))%C))).
      + unfold sum4. rewrite !K. reflexivity.
      + transitivity (- ip (cbar b) b' + ip (cbar b) (P4 p) * ip (P4 p) b' * k)%C; [unfold sum4, sgn, metric, ip, cbar; ring|]. rewrite O'. ring. }
  assert (R : forall M, In M (2 :: 0 :: -2 :: nil)%Z -> exists f, basisVector (Z.quot M 2) = Some f /\ ip (at_rest_ m) f = RtoC 0).
  { intros k Hk. states; eexists; (split; [reflexivity|]); unfold ip, at_rest_, four; ring. }
  assert (D : forall M N f f', In M (2 :: 0 :: -2 :: nil)%Z -> In N (2 :: 0 :: -2 :: nil)%Z -> basisVector (Z.quot M 2) = Some f -> basisVector (Z.quot N 2) = Some f' -> (- ip (cbar f) f')%C = delta M N).
  { clear. intros M N f f' HM HN E E'. pose proof ii as Hi.
    states; injection E as <-; injection E' as <-; unfold delta; destruct (Z.eq_dec _ _) as [X|X]; try discriminate X; try (now destruct X); unfold ip, cbar, four; push; root2; push;
    assert (H1 : (RtoC r * RtoC r + RtoC r * RtoC r = RtoC 1)%C) by (rewrite <- RtoC_mult, <- RtoC_plus; f_equal; lra); (ring [Hi] || (apply (lin _ _ _ _ (RtoC 1) H1); ring [Hi])). }
  destruct (R M HM) as (f & Ef & T). destruct (R N HN) as (f' & Ef' & _).
  exists (fun s => dot (cbar (mv B f)) (e s)), (fun s => dot (cbar (mv B f')) (e s)). split; [|split].
  - intro s. unfold overlap. cbn [Z.eqb Pos.eqb]. now rewrite Ef.
  - intro s. unfold overlap. cbn [Z.eqb Pos.eqb]. now rewrite Ef'.
  - rewrite (G f f' T). now apply D.
Qed.
Print Assumptions C111_complete.

(** A photon: the frame is one in which it flies along the third axis, and there are two projections. *)
Theorem C111_photon : forall A B p E v w, moves A B p (ahead E) -> E <> 0 -> ip (P4 p) v = RtoC 0 -> ip (P4 p) w = RtoC 0 ->
  summed (overlap 2 22 B) (2 :: -2 :: nil)%Z v w = Some (- ip (cbar v) w)%C.
Proof.
  intros A B p E v w F M V W. apply (momentum_A A B p _ v F) in V. apply (momentum_A A B p _ w F) in W. apply ahead_time in V; [|exact M]. apply ahead_time in W; [|exact M].
  destruct (two_states _ _ V W) as (e & g & E1 & E3 & S). cbn [summed]. unfold overlap. cbn [Z.eqb Pos.eqb].
  change (Z.quot 2 2) with 1%Z. change (Z.quot (-2) 2) with (-1)%Z. rewrite E1, E3, !(overlap_frame A B p _ _ _ F). f_equal. rewrite S.
  now rewrite (conj_A A B p _ v w F).
Qed.
Print Assumptions C111_photon.

(** A particle or antiparticle of spin 1/2. *)
Theorem C111_spinor : forall A B p m id v w, moves_spinors (Z.sgn id) A B p m -> m <> 0 -> id <> 0%Z ->
  dirac (RtoC (IZR (Z.sgn id))) (P4 p) m v -> dirac (RtoC (IZR (Z.sgn id))) (P4 p) m w ->
  summed (overlap 1 id B) (1 :: -1 :: nil)%Z v w = Some (RtoC (IZR (Z.sgn id)) * pairing v w)%C.
Proof.
  intros A B p m id v w F M I V W. pose proof F as (L & _ & D). apply D in V. apply D in W. rewrite <- (L v w). cbn [summed]. unfold overlap. cbn [Z.eqb Pos.eqb]. unfold basisSpinor.
  destruct id as [|n|n]; [now destruct I| |]; cbn [Z.sgn Z.gtb Z.ltb Z.compare andb Z.eqb Pos.eqb] in *; rewrite !(bar_frame _ A B p m _ _ F), !pairing_diag; unfold four; f_equal.
  - apply rest_spinors in V; [|now left|exact M]. apply rest_spinors in W; [|now left|exact M]. cbn in V, W. destruct V as [V2 V3], W as [W2 W3]. rewrite W2, W3, V2, V3. push. rewrite ?conj2. ring.
  - apply rest_spinors in V; [|now right|exact M]. apply rest_spinors in W; [|now right|exact M]. cbn in V, W. destruct V as [V2 V3], W as [W2 W3]. rewrite W2, W3, V2, V3. push. rewrite ?conj2, RtoC_m1. ring.
Qed.
Print Assumptions C111_spinor.

(** The same for spin 1/2. *)
Theorem C111_complete_spinor : forall A B p m id u M N, moves_spinors (Z.sgn id) A B p m -> m <> 0 -> id <> 0%Z -> spinor_states (Z.sgn id) p m u ->
  In M (1 :: -1 :: nil)%Z -> In N (1 :: -1 :: nil)%Z -> exists o o', (forall s, overlap 1 id B M (u s) = Some (o s)) /\ (forall s, overlap 1 id B N (u s) = Some (o' s)) /\
  (o 1%Z * Cconj (o' 1%Z) + o (-1)%Z * Cconj (o' (-1)%Z))%C = delta M N.
Proof.
  intros A B p m id u M N F H0 I (D & O & _) HM HN.
  assert (R : forall M, In M (1 :: -1 :: nil)%Z -> exists o, forall s, overlap 1 id B M (u s) = Some (o s)).
  { intros k Hk. unfold overlap. cbn [Z.eqb Pos.eqb]. assert (E : exists f, basisSpinor k id = Some f) by (unfold basisSpinor; destruct id as [|n|n]; [now destruct I| |]; states; eexists; reflexivity).
    destruct E as (f & ->). eexists (fun s => _). intro s. reflexivity. }
  destruct (R 1%Z) as (a & Ea); [now left|]. destruct (R (-1)%Z) as (b & Eb); [right; now left|].
  assert (U : forall s t, In s (1 :: -1 :: nil)%Z -> In t (1 :: -1 :: nil)%Z -> (Cconj (a s) * a t + Cconj (b s) * b t)%C = delta s t).
  { intros s t S T. pose proof (C111_spinor A B p m id (u s) (u t) F H0 I (D s S) (D t T)) as K. cbn [summed] in K. rewrite !Ea, !Eb in K. apply (f_equal (fun x => match x with Some c => c | None => RtoC 0 end)) in K. cbv beta iota in K. rewrite (O s t S T) in K.
    assert (SS : (RtoC (IZR (Z.sgn id)) * RtoC (IZR (Z.sgn id)))%C = RtoC 1) by (rewrite <- RtoC_mult; f_equal; destruct id; [now destruct I| |]; cbn; ring).
    etransitivity; [|etransitivity; [exact K|]]; [ring|]. rewrite Cmult_assoc, SS. ring. }
  pose proof (U 1%Z 1%Z (or_introl eq_refl) (or_introl eq_refl)) as U1. pose proof (U 1%Z (-1)%Z (or_introl eq_refl) (or_intror (or_introl eq_refl))) as U2.
  pose proof (U (-1)%Z 1%Z (or_intror (or_introl eq_refl)) (or_introl eq_refl)) as U3. pose proof (U (-1)%Z (-1)%Z (or_intror (or_introl eq_refl)) (or_intror (or_introl eq_refl))) as U4.
  change (delta 1 1) with (RtoC 1) in U1. change (delta 1 (-1)) with (RtoC 0) in U2. change (delta (-1) 1) with (RtoC 0) in U3. change (delta (-1) (-1)) with (RtoC 1) in U4.
  destruct (two_by_two _ _ _ _ _ _ _ _ U1 U2 U3 U4) as (V1 & V2 & V3 & V4).
  states; [exists a, a|exists b, a|exists a, b|exists b, b]; (split; [assumption|split; [assumption|]]); unfold delta; destruct (Z.eq_dec _ _) as [X|X]; try discriminate X; try (now destruct X); assumption.
Qed.
Print Assumptions C111_complete_spinor.

(** The state that has projection N in the frame overlaps with projection N only. *)
Theorem C111_own : (forall A B p q id M N f, moves A B p q -> In M (1 :: 0 :: -1 :: nil)%Z -> In N (1 :: 0 :: -1 :: nil)%Z -> basisVector N = Some f ->
    overlap 2 id B (2 * M) (mv B f) = Some (- delta M N)%C) /\
  (forall A B p m id M N f, moves_spinors (Z.sgn id) A B p m -> id <> 0%Z -> In M (1 :: -1 :: nil)%Z -> In N (1 :: -1 :: nil)%Z -> basisSpinor N id = Some f ->
    overlap 1 id B M (mv B f) = Some (RtoC (IZR (Z.sgn id)) * delta M N)%C).
Proof.
  split.
  - intros A B p q id M N f F HM HN Ef. pose proof F as (_ & _ & I & _). unfold overlap. cbn [Z.eqb Pos.eqb]. rewrite (Z.mul_comm 2), Z.quot_mul by lia.
    assert (E : exists g, basisVector M = Some g) by (states; eexists; reflexivity). destruct E as (g & Eg). rewrite Eg, (overlap_frame A B p q g (mv B f) F), I. f_equal. pose proof ii as Hi.
    states; injection Ef as <-; injection Eg as <-; unfold delta; destruct (Z.eq_dec _ _) as [X|X]; try discriminate X; try (now destruct X); unfold ip, cbar, four; push; root2; push;
    assert (H1 : (RtoC r * RtoC r + RtoC r * RtoC r = RtoC 1)%C) by (rewrite <- RtoC_mult, <- RtoC_plus; f_equal; lra); (ring [Hi] || (apply (lin _ _ _ _ (- RtoC 1)%C H1); ring [Hi])).
  - intros A B p m id M N f F I HM HN Ef. pose proof F as (_ & J & _). unfold overlap. cbn [Z.eqb Pos.eqb].
    assert (E : exists g, basisSpinor M id = Some g) by (unfold basisSpinor; destruct id as [|n|n]; [now destruct I| |]; states; eexists; reflexivity). destruct E as (g & Eg).
    rewrite Eg, (bar_frame _ A B p m g (mv B f) F), J, pairing_diag. f_equal. unfold basisSpinor in *.
    destruct id as [|n|n]; [now destruct I| |]; states; injection Ef as <-; injection Eg as <-; unfold delta; destruct (Z.eq_dec _ _) as [X|X]; try discriminate X; try (now destruct X);
      unfold four; cbn [Z.sgn]; push; rewrite ?RtoC_m1; ring.
Qed.
Print Assumptions C111_own.

(** The projections are those along the third axis: a turn about it by phi multiplies by exp(-i M phi). *)
Theorem C111_axis : forall phi, (forall s, In s (1 :: 0 :: -1 :: nil)%Z -> exists e, basisVector s = Some e /\ turn phi e = vsc (phase (- IZR s * phi)) e) /\
  (forall s id, In s (1 :: -1 :: nil)%Z -> id <> 0%Z -> exists u, basisSpinor s id = Some u /\ turn_spinor phi u = vsc (phase (- (IZR s / 2) * phi)) u).
Proof.
  intro phi. split.
  - intros s S. states; eexists; (split; [reflexivity|]); apply functional_extensionality; intros []; unfold turn, vsc, phase, four;
      try replace (- (1) * phi) with (- phi) by ring; try replace (- (-1) * phi) with phi by ring; try replace (- 0 * phi) with 0 by ring;
      rewrite ?cos_neg, ?sin_neg, ?cos_0, ?sin_0; parts; ring.
  - intros s id S I. unfold basisSpinor. destruct id as [|n|n]; [now destruct I| |]; states; eexists; (split; [reflexivity|]); apply functional_extensionality; intros []; unfold turn_spinor, vsc, four;
      try replace (- (1 / 2) * phi) with (- phi / 2) by field; try replace (- (-1 / 2) * phi) with (phi / 2) by field; ring.
Qed.
Print Assumptions C111_axis.

(** Couplings given by the user: the three numbers of each in order; other numbers of them are undefined. *)
Theorem C111_couplings : (forall l, l <> nil -> userHelicityCouplings (Some (flat_map (fun c => factor c :: m1 c :: m2 c :: nil) l)) = Ok l) /\
  userHelicityCouplings (Some nil) = Throw /\ (forall l, Nat.modulo (List.length l) 3 <> 0%nat -> userHelicityCouplings (Some l) = UB).
Proof.
  assert (T : forall l, triples (flat_map (fun c => factor c :: m1 c :: m2 c :: nil) l) = Ok l).
  { induction l as [|[a b c] l IH]; [reflexivity|].
    change (bind (triples (flat_map (fun c => factor c :: m1 c :: m2 c :: nil) l)) (fun t => Ok ({| factor := a; m1 := b; m2 := c |} :: t)) = Ok ({| factor := a; m1 := b; m2 := c |} :: l)).
    now rewrite IH. }
  split; [|split; [reflexivity|]].
  - intros l N. unfold userHelicityCouplings; cbn [things]. rewrite T. cbn [bind]. destruct l; [now destruct N|reflexivity].
  - intros l N. unfold userHelicityCouplings; cbn [things]. enough (U : triples l = UB) by now rewrite U. revert N.
    assert (G : forall n l, (List.length l <= n)%nat -> Nat.modulo (List.length l) 3 <> 0%nat -> triples l = UB); [|now apply (G (List.length l))].
    clear. induction n as [|n IH]; intros [|a [|b [|c l]]] H N; try reflexivity; cbn [List.length] in *; try lia; try now destruct N.
    cbn [triples]. rewrite IH; [reflexivity|lia|]. intro E. apply N. replace (S (S (S (List.length l)))) with (List.length l + 1 * 3)%nat by lia. now rewrite Nat.mod_add.
Qed.
Print Assumptions C111_couplings.

(** Couplings that are not given at all are not reported but read behind the end of the default, which is one number (src/Wigner.cpp:209-216). *)
Theorem C111_missing_refuted : exists line, (forall l, line <> Some l) /\ userHelicityCouplings line = UB.
Proof. exists None. split; [discriminate|reflexivity]. Qed.
Print Assumptions C111_missing_refuted.

(** ** Examples: a boost to the rest frame along the third axis. *)
Definition quick : mom := {| px := 0; py := 0; pz := 15; en := 17 |}.
Definition boost (s : R) : ten := fun i j => RtoC (match i, j with I0, I0 | I1, I1 => 1 | I2, I2 | I3, I3 => 17 / 8 | I2, I3 | I3, I2 => s * (15 / 8) | _, _ => 0 end).
Definition boost_bispinor (s : R) : ten := fun i j =>
  RtoC (match i, j with I0, I0 | I1, I1 | I2, I2 | I3, I3 => 5 / 4 | I0, I2 | I2, I0 => s * (3 / 4) | I1, I3 | I3, I1 => - s * (3 / 4) | _, _ => 0 end).
Lemma C_eq (a b : C) : fst a = fst b -> snd a = snd b -> a = b. Proof. destruct a, b; cbn. now intros -> ->. Qed.
Ltac comp v := let t i := (let x := fresh "x" in let y := fresh "y" in destruct (v i) as [x y]) in t I0; t I1; t I2; t I3.
Example C111_vector_ex : moves (boost (-1)) (boost 1) quick (at_rest_ 8).
Proof.
  split; [intros [] []; unfold boost; apply Cconj_R|]. split; [|split].
  - intros a b. unfold ip, mv, sum4, boost. comp a. comp b. parts; field.
  - intro v. apply functional_extensionality. intros []; unfold mv, sum4, boost; comp v; parts; field.
  - apply functional_extensionality. intros []; unfold mv, sum4, boost, at_rest_, four, P4, quick; cbn [px py pz en]; parts; field.
Qed.
Example C111_unitary_ex : exists e, vector_states quick 8 e.
Proof.
  destruct (Verif.External.Props.C94_vectors quick 8 443%Z) as (e & _ & V); [|now exists e]. unfold on_shell, quick. cbn. lra.
Qed.
Lemma slash_quick v : mv (slash (P4 quick)) v = four (RtoC 17 * v I0 - RtoC 15 * v I2)%C (RtoC 17 * v I1 + RtoC 15 * v I3)%C (RtoC 15 * v I0 - RtoC 17 * v I2)%C (- (RtoC 15 * v I1) - RtoC 17 * v I3)%C.
Proof. apply functional_extensionality. intros []; unfold mv, slash, sum4, sgn, Gamma4Vec, Gamma, square, four, P4, quick; cbn [nth px py pz en]; ring. Qed.
Lemma slash_rest m v : mv (slash (at_rest_ m)) v = four (RtoC m * v I0)%C (RtoC m * v I1)%C (- (RtoC m * v I2))%C (- (RtoC m * v I3))%C.
Proof. apply functional_extensionality. intros []; unfold mv, slash, sum4, sgn, Gamma4Vec, Gamma, square, four, at_rest_, four; cbn [nth]; ring. Qed.
Lemma boost_entries s v : mv (boost_bispinor s) v = four (RtoC (5 / 4) * v I0 + RtoC (s * (3 / 4)) * v I2)%C (RtoC (5 / 4) * v I1 + RtoC (- s * (3 / 4)) * v I3)%C
  (RtoC (s * (3 / 4)) * v I0 + RtoC (5 / 4) * v I2)%C (RtoC (- s * (3 / 4)) * v I1 + RtoC (5 / 4) * v I3)%C.
Proof. apply functional_extensionality. intros []; unfold mv, sum4, boost_bispinor, four; ring. Qed.
Example C111_spinor_ex : moves_spinors 1 (boost_bispinor (-1)) (boost_bispinor 1) quick 8 /\ exists v, v I0 <> RtoC 0 /\ dirac (RtoC 1) (P4 quick) 8 v.
Proof.
  split; [split; [|split]|].
  - intros a b. rewrite !pairing_diag, !boost_entries. unfold four. comp a. comp b. parts; field.
  - intro v. rewrite !boost_entries. apply functional_extensionality. intros []; unfold four; comp v; parts; field.
  - intros v D. unfold dirac in *. transitivity (mv (boost_bispinor (-1)) (mv (slash (P4 quick)) v)).
    + rewrite slash_rest, slash_quick, !boost_entries. apply functional_extensionality. intros []; unfold four; comp v; parts; field.
    + rewrite D. apply functional_extensionality. intros i. unfold mv, vsc, sum4. ring.
  - exists (four (RtoC 5) (RtoC 0) (RtoC 3) (RtoC 0)). split; [intro E; injection E as E; lra|]. unfold dirac. rewrite slash_quick. apply functional_extensionality.
    intros []; unfold vsc, four; parts; field.
Qed.
Example C111_couplings_ex : userHelicityCouplings (Some (1 :: 1 :: 1 :: 0.5 :: -1 :: -1 :: nil)) = Ok ({| factor := 1; m1 := 1; m2 := 1 |} :: {| factor := 0.5; m1 := -1; m2 := -1 |} :: nil).
Proof. reflexivity. Qed.
