(** Binned sums over events. *)
From Verif.Common Require Import Prelude.
From Coq Require Import Reals.
Local Open Scope R_scope.
Fixpoint total {A} (f : A -> R) (l : list A) : R := match l with [] => 0 | x :: l' => f x + total f l' end.
(** [x] is in bin b of n equal bins of [min, max), counted from 1. *)
Definition in_bin (n : nat) (min max : R) (b : nat) (x : R) : Prop :=
  min + (INR b - 1) * ((max - min) / INR n) <= x < min + INR b * ((max - min) / INR n).
(** Which cell of a histogram a value belongs to. *)
Inductive cell (n : nat) (min max x : R) : nat -> Prop :=
| below : x < min -> cell n min max x 0
| above : max <= x -> cell n min max x (S n)
| inside b : (1 <= b <= n)%nat -> in_bin n min max b x -> cell n min max x b.
