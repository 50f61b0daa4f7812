From Coq Require Import Reals List Lra Permutation String.
From Verif.Common Require Import Prelude.
From Verif.Kinematics Require Import Model Spec Proofs.
From Verif.Recursive Require Import Model Spec Proofs Events.
Import ListNotations.
Local Open Scope R_scope.

(** The nodes of the generator are the particles of the decay; every final state has a place of its own in the event, of its own name. *)
Theorem C91_places types c : Permutation (final_states c) types ->
  map erase (construct types c) = daughters c /\
  exists ks, flat_map leaves (construct types c) = combine (final_states c) (map Some ks) /\ Permutation ks (seq 0 (List.length types)) /\ Forall2 (fun k n => nth_error types k = Some n) ks (final_states c).
Proof. intro P. split; [apply erase_construct|now apply construct_places]. Qed.
Print Assumptions C91_places.

(** When no particle that decays is at rest in the frame of its mother: the event has one momentum per particle of the event type, they add up
    to the head at rest, and the final states of each particle of the decay have its mass. *)
Theorem C91_event types c draws M :
  Permutation (final_states c) types -> all_possible (construct types c) draws -> total (map momentum_of draws) = P4 (V3 0 0 0) M ->
  exists evt, makeEvent types (construct types c) draws = Ok evt /\ List.length evt = List.length types /\ total evt = P4 (V3 0 0 0) M /\ Forall (masses_right evt) (construct types c).
Proof. apply event_ok. Qed.
Print Assumptions C91_event.

Definition pi := S_ "pi".
Definition K := S_ "K".
(* X (26) decays to A (5) with momentum 12 and a massive pi (5); A decays to two massless K. *)
Definition two : chain := Chain (S_ "X") 26 [Chain (S_ "A") 5 [Chain K 0 []; Chain K 0 []]; Chain pi 5 []].
Definition draw2 : list drawn :=
  [Drawn (P4 (V3 0 0 12) 13) [Drawn (P4 (V3 (5/2) 0 0) (5/2)) []; Drawn (P4 (V3 (-5/2) 0 0) (5/2)) []]; Drawn (P4 (V3 0 0 (-12)) 13) []].
Example C91_event_ex : Permutation (final_states two) [K; pi; K] /\ all_possible (construct [K; pi; K] two) draw2 /\ total (map momentum_of draw2) = P4 (V3 0 0 0) 26 /\
  flat_map leaves (construct [K; pi; K] two) = [(K, Some 0%nat); (K, Some 2%nat); (pi, Some 1%nat)].
Proof.
  split; [apply perm_skip, perm_swap|]. split; [|split; [|reflexivity]].
  - assert (A : construct [K; pi; K] two = [Node (S_ "A") 5 None [Node K 0 (Some 0%nat) []; Node K 0 (Some 2%nat) []]; Node pi 5 (Some 1%nat) []]) by reflexivity. rewrite A.
    cbn [all_possible possible draw2]. unfold dot, dot3. cbn [vect en vx vy vz]. repeat split; try lra. { intro Z. injection Z. intros. lra. } { cbn. unfold add4, add3. cbn. f_equal; [f_equal|]; lra. }
  - cbn. unfold add4, add3. cbn. f_equal; [f_equal|]; lra.
Qed.

(** A particle that decays and is exactly at rest in the frame of its mother, as it is whenever a mother has exactly the mass of its daughters, has a null
    vector as direction of the boost: the event is not a number (norm of a null vector is divided by, src/Kinematics.cpp). *)
Theorem C91_at_rest_refuted : exists types c draws M, Permutation (final_states c) types /\ Forall2 permitted (construct types c) draws /\ total (map momentum_of draws) = P4 (V3 0 0 0) M /\
  makeEvent types (construct types c) draws = Throw.
Proof.
  exists [K; K; pi], (Chain (S_ "X") 10 [Chain (S_ "A") 5 [Chain K 0 []; Chain K 0 []]; Chain pi 5 []]).
  exists [Drawn (P4 (V3 0 0 0) 5) [Drawn (P4 (V3 (5/2) 0 0) (5/2)) []; Drawn (P4 (V3 (-5/2) 0 0) (5/2)) []]; Drawn (P4 (V3 0 0 0) 5) []], 10.
  split; [apply Permutation_refl|]. match goal with |- context [construct ?t ?c] => assert (A : construct t c = [Node (S_ "A") 5 None [Node K 0 (Some 0%nat) []; Node K 0 (Some 1%nat) []]; Node pi 5 (Some 2%nat) []]) by reflexivity end. rewrite A. split; [|split].
  - constructor; [|constructor; [|constructor]]; cbn [permitted map momentum_of]; unfold dot, dot3; cbn [vect en vx vy vz]; repeat split; try lra. cbn. unfold add4, add3. cbn. f_equal; [f_equal|]; lra.
  - cbn. unfold add4, add3. cbn. f_equal; [f_equal|]; lra.
  - unfold makeEvent. cbn [generate List.length]. rewrite generate1_node by discriminate. cbn [generate generate1 bind repeat]. cbn. destruct (Req_EM_T 5 0); [lra|].
    match goal with |- context [Req_EM_T ?m 0] => destruct (Req_EM_T m 0) as [_|N] end; [reflexivity|]. destruct N. unfold mag, dot3. cbn. replace (0 * 0 + 0 * 0 + 0 * 0) with 0 by ring. apply sqrt_0.
Qed.
Print Assumptions C91_at_rest_refuted.

(** A decay with more particles of a name than the event type has: a particle inside a resonance keeps the place it was given by the constructor for the
    resonance alone, which another particle has too, and the event has the sum of their momenta there (src/RecursivePhaseSpace.cpp:28-38). *)
Theorem C91_shared_place_refuted : exists types c i j n, i <> j /\ nth_error (flat_map leaves (construct types c)) i = Some n /\ nth_error (flat_map leaves (construct types c)) j = Some n /\ snd n <> None.
Proof.
  exists [K; pi], (Chain (S_ "X") 10 [Chain K 1 []; Chain (S_ "A") 5 [Chain K 1 []; Chain pi 1 []]]), 0%nat, 1%nat, (K, Some 0%nat). repeat split; discriminate.
Qed.
Print Assumptions C91_shared_place_refuted.
