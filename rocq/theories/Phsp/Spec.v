(** What a phase-space event is. *)
From Coq Require Import Reals List.
Import ListNotations.
Local Open Scope R_scope.

Notation quad := (R * R * R * R)%type.

Definition plus4 (a b : quad) : quad :=
  let '(x, y, z, e) := a in let '(x', y', z', e') := b in (x + x', y + y', z + z', e + e').
Definition total (l : list quad) : quad := fold_right plus4 (0, 0, 0, 0) l.
Definition mass2 (p : quad) : R := let '(x, y, z, e) := p in e * e - (x * x + y * y + z * z).
Definition energy (p : quad) : R := snd p.

(** On shell with positive energy. *)
Definition on_shell (m : R) (p : quad) : Prop := mass2 p = m * m /\ 0 <= energy p.

(** The numbers of a generator of uniform numbers between 0 and 1. *)
Definition uniform (u : nat -> R) : Prop := forall k, 0 < u k < 1.

Definition sum (l : list R) : R := fold_right Rplus 0 l.
