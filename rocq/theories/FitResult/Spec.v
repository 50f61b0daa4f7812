(** What fit output may reveal, and what it must preserve. *)
From Verif.Common Require Import Prelude.
From Verif.Minuit Require Import Model.

Section Spec.
  Variable D : Type.
  Notation param := (param D).

  Definition contains (sub s : str) : Prop := exists a b, s = a ++ sub ++ b.

  Definition same_but_mean (p q : param) : Prop :=
    name D p = name D q /\ flag D p = flag D q /\ meanInit D p = meanInit D q /\ stepInit D p = stepInit D q /\
    minInit D p = minInit D q /\ maxInit D p = maxInit D q /\ errPos D p = errPos D q /\ errNeg D p = errNeg D q /\
    err D p = err D q /\ index D p = index D q.

  (** Two parameter sets that a user who must not see blinded values cannot tell apart: the values of the offsets
      (the [secret] ones) may differ, those of blinded parameters may differ as long as the sum with the offset is the
      same and the offset is in use. *)
  Variables (add : D -> D -> D) (zero : D) (secret : param -> Prop).
  Definition twin (ps ps' : list param) (p p' : param) : Prop :=
    same_but_mean p p' /\
    (secret p \/
     (flag D p = 4%Z /\ forall q q', In q ps -> In q' ps' -> name D q = name D p ++ S_ "_blind" -> name D q' = name D p ++ S_ "_blind" ->
        mean D q <> zero /\ mean D q' <> zero /\ add (mean D p) (mean D q) = add (mean D p') (mean D q')) \/
     (flag D p <> 4%Z /\ mean D p = mean D p')).
  Definition indistinguishable (ps ps' : list param) : Prop := Forall2 (twin ps ps') ps ps'.

  (** A parameter written as an option and read back. *)
  Definition kept (p q : param) : Prop :=
    name D q = name D p /\ flag D q = flag D p /\ mean D q = mean D p /\ meanInit D q = mean D p /\
    stepInit D q = err D p /\ minInit D q = minInit D p /\ maxInit D q = maxInit D p.
End Spec.
