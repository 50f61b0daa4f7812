From Coq Require Import Field QArith Qcanon.
From Verif.Common Require Import Prelude.
From Verif.Tensor Require Import Model Spec Invert InvertStages.
Local Open Scope nat_scope.

(** ** C29 *)
(** [invert] on a square matrix, with elements in any field: the result is the inverse from both sides. The elements of a
    fresh tensor: [data(i, j)] is element [i*n + j]. *)
Definition fresh (n i j : nat) : nat := i * n + j.
(** The inverse of [A] on both sides. *)
Definition inverse_of (V : Type) (v0 v1 : V) (add mul : V -> V -> V) (n : nat) (A R : nat -> nat -> V) : Prop :=
  forall i j, i < n -> j < n ->
    vsum V v0 add (fun k => mul (A i k) (R k j)) n = (if i =? j then v1 else v0) /\
    vsum V v0 add (fun k => mul (R i k) (A k j)) n = (if i =? j then v1 else v0).

(** Every matrix for which no pivot of the decomposition is 0. *)
Theorem C29_inverse : forall V v0 v1 add mul sub opp div inv, field_theory v0 v1 add mul sub opp div inv eq ->
  forall n (m : nat -> V),
  (forall i, i < n -> decompose V v0 add mul sub div (fresh n) n m (fresh n i i) <> v0) ->
  inverse_of V v0 v1 add mul n (fun i j => m (fresh n i j)) (fun i j => invert V v0 v1 add mul sub opp div (fresh n) n m (fresh n i j)).
Proof.
  intros V v0 v1 add mul sub opp div inv F n m P i j Hi Hj.
  assert (Inj : forall i j i' j', i < n -> j < n -> i' < n -> j' < n -> fresh n i j = fresh n i' j' -> i = i' /\ j = j').
  { unfold fresh. intros a b a' b' _ Hb _ Hb' E. apply (Nat.div_mod_unique n); lia. }
  destruct (invert_ok V v0 v1 add mul sub opp div inv F (fresh n) n Inj m P) as [H K]. split; [now apply H|now apply K].
Qed.
Print Assumptions C29_inverse.
(** A condition on the matrix alone: every leading block has only the zero vector in its kernel. *)
Theorem C29_leading_blocks : forall V v0 v1 add mul sub opp div inv, field_theory v0 v1 add mul sub opp div inv eq ->
  forall n (m : nat -> V),
  (forall k, k <= n -> forall x, (forall i, i < k -> vsum V v0 add (fun j => mul (m (fresh n i j)) (x j)) k = v0) -> forall j, j < k -> x j = v0) ->
  inverse_of V v0 v1 add mul n (fun i j => m (fresh n i j)) (fun i j => invert V v0 v1 add mul sub opp div (fresh n) n m (fresh n i j)).
Proof.
  intros V v0 v1 add mul sub opp div inv F n m P. apply C29_inverse with (inv := inv); [exact F|].
  assert (Inj : forall i j i' j', i < n -> j < n -> i' < n -> j' < n -> fresh n i j = fresh n i' j' -> i = i' /\ j = j').
  { unfold fresh. intros a b a' b' _ Hb _ Hb' E. apply (Nat.div_mod_unique n); lia. }
  exact (pivots V v0 v1 add mul sub opp div inv F (fresh n) n Inj m P).
Qed.
Print Assumptions C29_leading_blocks.

Definition qinvert := invert Qc 0%Qc 1%Qc Qcplus Qcmult Qcminus Qcopp Qcdiv.
Definition qdecompose := decompose Qc 0%Qc Qcplus Qcmult Qcminus Qcdiv.
Definition ex_inv (c : nat) : Qc := nth c (map (fun z => Q2Qc (inject_Z z)) [2; 1; 3;  4; 1; 0;  1; 5; 6]%Z) 0%Qc.
Lemma qc_neq a b : Qeq_bool (this a) (this b) = false -> a <> b.
Proof. intros H ->. rewrite (proj2 (Qeq_bool_iff _ _)) in H by reflexivity. discriminate. Qed.
Lemma qc_eq a b : Qeq_bool (this a) (this b) = true -> a = b.
Proof. intro H. apply Qc_is_canon. now apply Qeq_bool_iff. Qed.
Example C29_example : (forall i, i < 3 -> qdecompose (fresh 3) 3 ex_inv (fresh 3 i i) <> 0%Qc) /\
  map (fun c => this (qinvert (fresh 3) 3 ex_inv c)) (seq 0 9) =
    [2 # 15; 1 # 5; -1 # 15;  -8 # 15; 1 # 5; 4 # 15;  19 # 45; -1 # 5; -2 # 45]%Q.
Proof.
  split; [|vm_compute; reflexivity]. intros i Hi. apply qc_neq. assert (C : i = 0 \/ i = 1 \/ i = 2) by lia.
  destruct C as [-> |[-> | ->]]; vm_compute; reflexivity.
Qed.

(** A tensor on which a symmetry has been imposed ([imposeSymmetry(0, 1)]): [data(i, j)] and [data(j, i)] are the same
    element, and the decomposition, which keeps two different triangles in place, overwrites one with the other. The
    inverse of ((2, 1), (1, 2)) comes out wrong although no pivot is 0. *)
Definition aliased (n i j : nat) : nat := fresh n (Nat.max i j) (Nat.min i j).
Theorem C29_symmetrised_refuted : exists n (m : nat -> Qc),
  (forall i, i < n -> qdecompose (aliased n) n m (aliased n i i) <> 0%Qc) /\
  (exists R, inverse_of Qc 0%Qc 1%Qc Qcplus Qcmult n (fun i j => m (aliased n i j)) R) /\
  ~ inverse_of Qc 0%Qc 1%Qc Qcplus Qcmult n (fun i j => m (aliased n i j)) (fun i j => qinvert (aliased n) n m (aliased n i j)).
Proof.
  exists 2, (fun c => nth c (map (fun z => Q2Qc (inject_Z z)) [2; 0; 1; 2]%Z) 0%Qc). split; [|split].
  - intros i Hi. apply qc_neq. assert (C : i = 0 \/ i = 1) by lia. destruct C as [-> | ->]; vm_compute; reflexivity.
  - exists (fun i j => if i =? j then Q2Qc (2 # 3) else Q2Qc (-1 # 3)). intros i j Hi Hj.
    assert (Ci : i = 0 \/ i = 1) by lia. assert (Cj : j = 0 \/ j = 1) by lia.
    destruct Ci as [-> | ->], Cj as [-> | ->]; split; apply qc_eq; vm_compute; reflexivity.
  - intro H. destruct (H 0 0) as [H1 _]; [lia|lia|]. revert H1. apply qc_neq. vm_compute. reflexivity.
Qed.
Print Assumptions C29_symmetrised_refuted.
