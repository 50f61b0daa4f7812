(** Exact sums, and binary floating-point numbers. *)
From Coq Require Import Reals List ZArith.
From Flocq Require Import Core.
Import ListNotations.
Local Open Scope R_scope.

Definition exact (xs : list R) : R := fold_right Rplus 0 xs.

(** Numbers with [prec] bits and exponents from [emin]: double is prec = 53, emin = -1074. A number is rounded to the nearest; [choice] decides ties,
    symmetrically (to even in IEEE 754). *)
Definition number (emin prec : Z) (x : R) : Prop := generic_format radix2 (FLT_exp emin prec) x.
Definition nearest (emin prec : Z) (choice : Z -> bool) (x : R) : R := round radix2 (FLT_exp emin prec) (Znearest choice) x.
Definition symmetric (choice : Z -> bool) : Prop := forall x, choice x = negb (choice (- (x + 1))%Z).
(** Half the distance from 1 to the next number. *)
Definition half_ulp (prec : Z) : R := bpow radix2 (- prec).
