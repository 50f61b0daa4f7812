(** Polynomials by their coefficients, and inverse matrices. *)
From Verif.Common Require Import Prelude.
From Coq Require Import Reals.
Local Open Scope R_scope.
(** c 0 + c 1 x + ... + c n x^n *)
Definition poly (c : nat -> R) (n : nat) (x : R) : R := sum_f_R0 (fun i => c i * x ^ i) n.
Definition delta (i j : nat) : R := if Nat.eq_dec i j then 1 else 0.
Definition inverse_of (n : nat) (M X : nat -> nat -> R) : Prop := forall i j, (i <= n)%nat -> (j <= n)%nat ->
  sum_f_R0 (fun k => M i k * X k j) n = delta i j /\ sum_f_R0 (fun k => X i k * M k j) n = delta i j.
