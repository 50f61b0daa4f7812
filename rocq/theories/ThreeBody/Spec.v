From Coq Require Import Reals List.
From Coquelicot Require Import Complex.
From Verif.Common Require Import Prelude.
Import ListNotations.
Local Open Scope R_scope.

Definition rsum (l : list R) : R := fold_right Rplus 0 l.
Definition csum (l : list C) : C := fold_right Cplus (RtoC 0) l.
(** All lists of [r] numbers below [n]. *)
Fixpoint indices (n r : nat) : list (list nat) := match r with O => [[]] | S r => flat_map (fun c => map (cons c) (indices n r)) (seq 0 n) end.
(** Only elements with all coordinates in space: a current of a particle at rest. *)
Definition spatial (A : list nat -> C) : Prop := forall co, In 3%nat co -> A co = RtoC 0.
Definition sqmod (z : C) : R := fst z * fst z + snd z * snd z.
(** The sum of the numbers in a list. *)
Fixpoint numbers (l : list (option R)) : R := match l with [] => 0 | Some x :: r => x + numbers r | None :: r => numbers r end.
