From Coq Require Import Reals Permutation Sorted.
From Coquelicot Require Import Complex.
From Verif.Common Require Import Prelude.
From Verif.Symmetrise Require Import Model.
Local Open Scope nat_scope.

(** The event [x] with the momenta in the places [i] and [j] exchanged. *)
Definition swap (i j k : nat) : nat := if Nat.eqb k i then j else if Nat.eqb k j then i else k.
Definition exchanged {A} (i j : nat) (x : nat -> A) : nat -> A := fun k => x (swap i j k).

(** The particles of the decay are those of the event type, each in its place. *)
Definition placed (types : list str) (ls : list leaf) : Prop :=
  Permutation (map orig ls) (seq 0 (List.length types)) /\ forall l, In l ls -> nth_error types (orig l) = Some (lname l).

(** Lexicographic order. *)
Inductive before : list nat -> list nat -> Prop :=
  | Before_hd a b l k : a < b -> before (a :: l) (b :: k)
  | Before_tl a l k : before l k -> before (a :: l) (a :: k).
(** A rearrangement of the particles that only exchanges identical ones. *)
Definition rearrangement (types : list str) (o : list nat) : Prop :=
  Permutation o (seq 0 (List.length types)) /\ forall k, k < List.length types -> nth_error types (nth k o 0) = nth_error types k.

(** What the tree gives when its particles have the momenta of the rearranged event. *)
Section Arranged.
  Variables (M : Type) (propagator : list M -> C) (spin : list (M * Z) -> C) (bgSpin0 : bool).
  Definition arranged (o : list nat) (x : nat -> M) (ls : list leaf) : C :=
    let y k := x (nth k o 0) in
    (propagator (map (fun l => y (orig l)) ls) * (if bgSpin0 then RtoC 1 else spin (map (fun l => (y (orig l), pol l)) ls)))%C.
End Arranged.
Definition sumC (l : list C) : C := fold_right Cplus (RtoC 0) l.
Definition sumR (l : list R) : R := fold_right Rplus 0%R l.

(** No three identical fermions. *)
Definition few_fermions (fermion : str -> bool) (types : list str) : Prop :=
  forall i j k x, nth_error types i = Some x -> nth_error types j = Some x -> nth_error types k = Some x -> fermion x = true -> i = j \/ j = k \/ i = k.
(** How many pairs of identical fermions a rearrangement exchanges, if there are no three of a kind. *)
Definition exchanges (fermion : str -> bool) (types : list str) (o : list nat) : nat :=
  List.length (filter (fun k => fermion (nth k types []) && (k <? nth k o 0)) (seq 0 (List.length types))).
