(** C46: phase-space events conserve four-momentum and are on shell. *)
From Coq Require Import Reals List Lra Lia.
From Verif.Common Require Import Prelude.
From Verif.Phsp Require Import Model Spec Proofs.
Import ListNotations.
Local Open Scope R_scope.

(** Whatever the random numbers, the event that [fill] gives has total momentum zero, total energy the mother mass, and particle by particle
    the masses of the decay, with positive energy. *)
Theorem C46_event : forall u old m0 ms s fuel l, uniform u -> (2 <= List.length ms <= 18)%nat -> Forall (Rle 0) ms -> sum ms < m0 ->
  set_decay old m0 ms = Ok (true, s) -> fill u fuel s = Ok l -> total l = (0, 0, 0, m0) /\ Forall2 on_shell ms l.
Proof.
  intros u old m0 ms s fuel l U L F S E Fl. destruct (set_decay_good old m0 ms s L F S E) as (G & Em & Et).
  rewrite <- Em in *. rewrite <- Et. exact (fill_ok u U s fuel l G Fl).
Qed.
Print Assumptions C46_event.

(** The set-up of an allowed decay succeeds, and filling then never reads outside an array and never gives something that is not a number. *)
Theorem C46_safe : forall u old m0 ms, uniform u -> (2 <= List.length ms <= 18)%nat -> Forall (Rle 0) ms -> sum ms < m0 ->
  exists s, set_decay old m0 ms = Ok (true, s) /\ forall fuel, fill u fuel s = OutOfFuel \/ exists l, fill u fuel s = Ok l.
Proof.
  intros u old m0 ms U L F S. destruct (set_decay_ok old m0 ms) as (w & E & _); auto; [unfold kMAXP; lia|]. eexists; split; [exact E|].
  intros fuel. apply fill_safe; auto. exact (proj1 (set_decay_good old m0 ms _ L F S E)).
Qed.
Print Assumptions C46_safe.

(** The weight of a trial is a probability: accept-reject keeps the trial with probability the weight over the maximal weight. *)
Theorem C46_weight : forall u old m0 ms s k inv pd w, uniform u -> (2 <= List.length ms <= 18)%nat -> Forall (Rle 0) ms -> sum ms < m0 ->
  set_decay old m0 ms = Ok (true, s) -> trial u s k = Some (inv, pd, w) -> 0 <= w <= 1.
Proof. intros u old m0 ms s k inv pd w U. exact (weight_one u U old m0 ms s k inv pd w). Qed.
Print Assumptions C46_weight.

(** The loop ends at the latest with the first trial whose random number does not exceed its weight; a trial uses n-1 numbers. *)
Theorem C46_live : forall u old m0 ms s j inv pd w, uniform u -> (2 <= List.length ms <= 18)%nat -> Forall (Rle 0) ms -> sum ms < m0 ->
  set_decay old m0 ms = Ok (true, s) -> trial u s (j * (List.length ms - 1)) = Some (inv, pd, w) ->
  u (j * (List.length ms - 1) + (List.length ms - 2))%nat <= w -> exists l, fill u (S j) s = Ok l.
Proof.
  intros u old m0 ms s j inv pd w U L F S E Et W. destruct (set_decay_good old m0 ms s L F S E) as (G & Em & _).
  rewrite <- Em in *. exact (fill_live u U s j inv pd w G Et W).
Qed.
Print Assumptions C46_live.

(** A two-body decay takes one trial. *)
Theorem C46_two_bodies : forall u old m0 a b s, uniform u -> 0 <= a -> 0 <= b -> a + b < m0 -> set_decay old m0 [a; b] = Ok (true, s) ->
  exists l, fill u 1 s = Ok l.
Proof.
  intros u old m0 a b s U A B D E. destruct (two_body_weight u old m0 a b s 0 A B D E) as (inv & pd & Et).
  apply (C46_live u old m0 [a; b] s 0 inv pd 1); auto.
  - cbn; lia.
  - cbn [sum fold_right]; lra.
  - left; apply U.
Qed.
Print Assumptions C46_two_bodies.

(** setDecay refuses a decay at threshold, the constructor ignores this (src/PhaseSpace.cpp:22), and filling an event does not end. *)
Theorem C46_threshold_refuted : exists m0 ms s, set_decay (Phsp [] 0 0) m0 ms = Ok (false, s) /\
  forall u fuel, uniform u -> fill u fuel s = OutOfFuel.
Proof.
  exists 2, [1; 1], (Phsp [1; 1] 0 0). split.
  - unfold set_decay. cbn [List.length]. change (Nat.ltb kMAXP 2) with false. rewrite fold_minus. cbn [sum fold_right].
    replace (2 - (1 + (1 + 0))) with 0 by ring. rewrite (proj2 (rlt_false _ _)) by lra. reflexivity.
  - intros u fuel U. apply threshold_stuck; auto; [cbn; unfold kMAXP; lia|]. repeat constructor; lra.
Qed.
Print Assumptions C46_threshold_refuted.

(** Below threshold the event is filled with momenta that are not numbers. *)
Theorem C46_below_threshold_refuted : exists m0 ms s, set_decay (Phsp [] 0 0) m0 ms = Ok (false, s) /\ forall u fuel, fill u (S fuel) s = Throw.
Proof.
  exists 1, [1; 1], (Phsp [1; 1] (1 - (1 + 1)) 0). split.
  - unfold set_decay. cbn [List.length]. change (Nat.ltb kMAXP 2) with false. rewrite fold_minus. cbn [sum fold_right].
    replace (1 - (1 + (1 + 0))) with (1 - (1 + 1)) by ring. rewrite (proj2 (rlt_false _ _)) by lra. reflexivity.
  - intros u fuel. apply below_nan; lra.
Qed.
Print Assumptions C46_below_threshold_refuted.

(** One particle: set up without complaint, then [fill] reads pd[0], which nothing has written. *)
Theorem C46_one_particle_refuted : exists m0 m s, set_decay (Phsp [] 0 0) m0 [m] = Ok (true, s) /\ forall u fuel, fill u fuel s = UB.
Proof.
  destruct (set_decay_ok (Phsp [] 0 0) 2 [1]) as (w & E & _); [cbn; unfold kMAXP; lia|repeat constructor; lra|cbn [sum fold_right]; lra|].
  exists 2, 1. eexists; split; [exact E|reflexivity].
Qed.
Print Assumptions C46_one_particle_refuted.

(** Nineteen particles overrun the member arrays. *)
Theorem C46_many_particles_refuted : exists m0 ms, Forall (Rle 0) ms /\ sum ms < m0 /\ forall old, set_decay old m0 ms = UB.
Proof.
  exists 20, (repeat 1 19). split; [|split].
  - apply Forall_forall. intros x H. apply repeat_spec in H. lra.
  - cbn [repeat sum fold_right]. lra.
  - reflexivity.
Qed.
Print Assumptions C46_many_particles_refuted.

(** *** Instances *)
Lemma half_uniform : uniform (fun _ => / 2).
Proof. intros k; lra. Qed.

(** A kaon-like decay into two particles of masses 1 and 2 from mass 5. *)
Example C46_event_ex : exists s l, set_decay (Phsp [] 0 0) 5 [1; 2] = Ok (true, s) /\ fill (fun _ => / 2) 1 s = Ok l
  /\ total l = (0, 0, 0, 5) /\ Forall2 on_shell [1; 2] l.
Proof.
  assert (F : Forall (Rle 0) [1; 2]) by (repeat constructor; lra). assert (S : sum [1; 2] < 5) by (cbn [sum fold_right]; lra).
  destruct (set_decay_ok (Phsp [] 0 0) 5 [1; 2]) as (w & E & _); auto; [cbn; unfold kMAXP; lia|].
  destruct (C46_two_bodies (fun _ => / 2) (Phsp [] 0 0) 5 1 2 _ half_uniform ltac:(lra) ltac:(lra) ltac:(lra) E) as [l Fl].
  eexists _, l. split; [exact E|split; [exact Fl|]]. refine (C46_event _ _ _ _ _ _ _ half_uniform _ F S E Fl). cbn; lia.
Qed.

(** Three particles of mass 1 from mass 5: the hypotheses of C46_weight and C46_safe. *)
Example C46_weight_ex : exists s inv pd w, set_decay (Phsp [] 0 0) 5 [1; 1; 1] = Ok (true, s) /\ trial (fun _ => / 2) s 0 = Some (inv, pd, w) /\ 0 <= w <= 1
  /\ inv = [1; 3; 5].
Proof.
  assert (F : Forall (Rle 0) [1; 1; 1]) by (repeat constructor; lra). assert (S : sum [1; 1; 1] < 5) by (cbn [sum fold_right]; lra).
  destruct (set_decay_ok (Phsp [] 0 0) 5 [1; 1; 1]) as (wm & E & _); auto; [cbn; unfold kMAXP; lia|].
  assert (L : (2 <= List.length [1; 1; 1]%R <= kMAXP)%nat) by (cbn; unfold kMAXP; lia).
  destruct (set_decay_good _ _ _ _ L F S E) as (G & _).
  destruct (trial_ok (fun _ => / 2) half_uniform _ 0%nat G) as (i & inv & pd & w & m & ms & Et & _).
  exists (Phsp [1; 1; 1] (5 - sum [1; 1; 1]) wm), (i :: inv), pd, w. repeat split; auto.
  - exact (proj1 (C46_weight _ _ _ _ _ _ _ _ _ half_uniform L F S E Et)).
  - exact (proj2 (C46_weight _ _ _ _ _ _ _ _ _ half_uniform L F S E Et)).
  - unfold trial in Et. cbn [masses te wtMax List.length fractions Nat.sub seq map app sort fold_right ins] in Et.
    assert (Ef : fractions (fun _ => / 2) 0 3 = [0; / 2; 1]).
    { unfold fractions. cbn [Nat.sub seq map app sort fold_right ins]. rewrite (proj2 (rlt_false 1 (/ 2))) by lra. reflexivity. }
    rewrite Ef in Et. cbn [invariants] in Et.
    match type of Et with option_map _ ?x = _ => destruct x as [[? ?]|] end; [|discriminate]. cbn [option_map] in Et.
    assert (X : i :: inv = [0 * (5 - sum [1; 1; 1]) + (0 + 1); / 2 * (5 - sum [1; 1; 1]) + (0 + 1 + 1); 1 * (5 - sum [1; 1; 1]) + (0 + 1 + 1 + 1)]) by congruence.
    rewrite X. cbn [sum fold_right]. repeat f_equal; lra.
Qed.
