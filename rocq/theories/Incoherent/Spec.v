(** The density of an incoherent sum and its mean over a sample. *)
From Coq Require Import Reals.
From Verif.Common Require Import Prelude.
From Verif.Coherent Require Import Model Spec Real.
Local Open Scope R_scope.

Section Spec.
  Variables (Ev : Type) (wt : Ev -> R) (V P : Type).
  Notation element := (element R Ev V P).
  Definition size2 (a : cplx R) : R := fst a ^ 2 + snd a ^ 2.
  (** sum_i |g_i A_i|^2 and |sum_i g_i A_i|^2, from scratch. *)
  Definition incoherent (p : P) (els : list (element * list V)) (x : Ev) : R :=
    Rsum (fun y => size2 (cmul RS (coupling (fst y) p) (fresh R Ev V P p y x))) els.
  Definition coherent (p : P) (els : list (element * list V)) (x : Ev) : R := size2 (fresh_sum R RS Ev V P p els x).
  (** The weighted mean of a function. *)
  Definition mean (f : Ev -> R) (mc : list Ev) : R := Rsum (fun x => wt x * f x) mc / Rsum wt mc.
End Spec.
