(** Sums of amplitudes. *)
From Verif.Common Require Import Prelude.
From Coq Require Import Reals.
From Coquelicot Require Import Hierarchy Complex.
From Verif.Evaluators Require Import Model.
Local Open Scope C_scope.
(** The amplitude of a decay with several contributions, each with its coefficient, at position k. *)
Definition amplitude (els : list element) (k : nat) : C := fold_right (fun e a => coefficient e * value e k + a) (RtoC 0) els.
Definition sumR (l : list R) : R := fold_right Rplus 0%R l.
(** The rates of the contributions on their own. *)
Definition rates (els : list element) (k : nat) : list R := map (fun e => (Cmod (coefficient e * value e k)%C ^ 2)%R) els.
