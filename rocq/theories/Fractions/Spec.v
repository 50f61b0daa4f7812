(** Which amplitudes belong to a process, and fractions in order. *)
From Verif.Common Require Import Prelude.
From Coq Require Import Reals Sorted.
From Verif.Fractions Require Import Model.
(** A text within another. *)
Definition within (label s : str) : Prop := exists a b, s = a ++ label ++ b.
(** The element has a coupling of the process. *)
Definition uses (m : melem) (label : str) : Prop := exists c, In c (couplings m) /\ within label c.
(** The numbers of the elements with a property, in increasing order. *)
Definition numbers (P : melem -> Prop) (mes : list melem) (l : list nat) : Prop :=
  StronglySorted lt l /\ forall i, In i l <-> exists m, nth_error mes i = Some m /\ P m.
(** Largest first, in absolute value. *)
Definition decreasing (l : list fraction) : Prop := StronglySorted (fun a b => (Rabs (value b) <= Rabs (value a))%R) l.
