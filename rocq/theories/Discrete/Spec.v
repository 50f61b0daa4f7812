(** Lengths of sets of numbers. *)
From Coq Require Import Reals List.
Import ListNotations.
Local Open Scope R_scope.

(** Half-open intervals, from left to right and without overlap, above [a] and up to [b]. *)
Fixpoint ordered (a b : R) (l : list (R * R)) : Prop :=
  match l with [] => a <= b | (x, y) :: l' => a <= x /\ x <= y /\ ordered y b l' end.
Definition length_of (l : list (R * R)) : R := fold_right Rplus 0 (map (fun '(x, y) => y - x) l).
Definition covered (l : list (R * R)) (u : R) : Prop := exists x y, In (x, y) l /\ x <= u < y.
(** A set of numbers of [0, 1) with length [len]. *)
Definition has_length (P : R -> Prop) (len : R) : Prop :=
  exists l, ordered 0 1 l /\ length_of l = len /\ forall u, 0 <= u < 1 -> (P u <-> covered l u).
Definition total (l : list R) : R := fold_right Rplus 0 l.
