From Verif.Common Require Import Prelude.
From Verif.Utilities Require Import Spec.
Local Open Scope nat_scope.
(** Words: not empty, without blanks. *)
Definition word (x : str) : Prop := ~ In " "%char x /\ ~ blank x.
Definition name_ (x : str) : Prop := ~ In "_"%char x /\ ~ blank x.
(** [i] is the first place of [x]. *)
Definition first (x : str) (l : list str) (i : nat) : Prop := nth_error l i = Some x /\ forall j, j < i -> nth_error l j <> Some x.
Definition part (w x : str) : Prop := exists a b, x = a ++ w ++ b.
