From Verif.Common Require Import Prelude.
Local Open Scope nat_scope.
(** The elements that the first [n] calls of a generator give, one after the other. *)
Definition stream {T} (g : nat -> list T) (n : nat) : list T := List.concat (map g (seq 0 n)).
(** The least number of blocks of size [b] that hold [t] elements. *)
Definition blocks (t b n : nat) : Prop := t <= n * b /\ forall m, t <= m * b -> n <= m.
