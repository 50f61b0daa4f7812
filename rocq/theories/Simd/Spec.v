(** Lists of events and sums over them. *)
From Verif.Common Require Import Prelude.
From Coq Require Import Reals.
From Verif.Simd Require Import Model.
Local Open Scope R_scope.
Fixpoint total {A} (f : A -> R) (l : list A) : R := match l with [] => 0 | x :: l' => f x + total f l' end.
(** The events with their positions. *)
Definition numbered (l : list event) : list event := map (fun p => Event (values (snd p)) (weight (snd p)) (genPdf (snd p)) (fst p)) (combine (seq 0 (List.length l)) l).
(** Every event has the values of the type of events. *)
Definition of_size (nf : nat) (l : list event) : Prop := Forall (fun e => List.length (values e) = nf) l.
(** Minus twice the logarithm of the likelihood; the weighted average. *)
Definition loglikelihood (pdf : list R -> R) (l : list event) : R := -2 * total (fun e => weight e * ln (pdf (values e))) l.
Definition mean (F : list R -> R) (l : list event) : R :=
  total (fun e => weight e / genPdf e * F (values e)) l / total (fun e => weight e / genPdf e) l.
