From Coq Require Import Reals List PeanoNat.
From Verif.Common Require Import Prelude.
Import ListNotations.
Local Open Scope R_scope.

Definition sumR {A} (l : list A) (f : A -> R) : R := fold_right (fun a s => f a + s) 0 l.
Section Spec.
  Context {event : Type}.
  Variables (bin : event -> nat) (weight genPdf : event -> R).
  (** The sum of a quantity over the events in bin b. *)
  Definition content (l : list event) (v : event -> R) (b : nat) : R := sumR (filter (fun e => Nat.eqb (bin e) b) l) v.
  (** What a simulated event counts. *)
  Definition predicted (fcn : event -> R) (e : event) : R := fcn e * weight e / genPdf e.
  (** The normalisation of the prediction. *)
  Definition scale_to (data mc : list event) (fcn : event -> R) : R := sumR data weight / sumR mc (predicted fcn).
  (** Difference, and its variance, in bin b. *)
  Definition difference (data mc : list event) (fcn : event -> R) (b : nat) : R := content data weight b - scale_to data mc fcn * content mc (predicted fcn) b.
  Definition variance (data mc : list event) (fcn : event -> R) (b : nat) : R :=
    content data (fun e => weight e ^ 2) b + scale_to data mc fcn ^ 2 * content mc (fun e => predicted fcn e ^ 2) b.
  Definition usable (size : nat) (data mc : list event) : Prop :=
    (0 < size)%nat /\ (forall e, In e (data ++ mc) -> (bin e < size)%nat) /\ (forall e, In e mc -> genPdf e <> 0).
End Spec.
