(** Model of the Padé approximants of AmpGen/Pade.h and src/Pade.cpp. Real numbers stand for [double]. The inverse of a matrix
    is taken by GSL (src/Pade.cpp:32-33): it is an argument here, of which the theorems assume that it is one. *)
From Verif.Common Require Import Prelude.
From Coq Require Import Reals.
Local Open Scope R_scope.

(** AmpGen/Pade.h:10; the number of the enumerator is that of the conversion at src/Pade.cpp:21. *)
Inductive strategy := linear | quadratic | cubic | quartic.
Definition number (s : strategy) : nat := match s with linear => 0 | quadratic => 1 | cubic => 2 | quartic => 3 end.
(** src/Pade.cpp:20-21; for N = 0 the quotient is 0/0 (not represented: the theorems have 0 < N). *)
Definition sample (N : nat) (strat : strategy) (eq : nat) : R := (INR eq / INR (2 * N)) ^ (number strat + 1).
(** src/Pade.cpp:23 *)
Definition rest (fcn : R -> R) (min max : R) (N : nat) (strat : strategy) (eq : nat) : R := fcn (sample N strat eq * (max - min) + min).
(** src/Pade.cpp:24-25: the matrix, all of whose entries are set (columns 0 to N and N+1 to 2N). *)
Definition solver (fcn : R -> R) (min max : R) (N : nat) (strat : strategy) (eq j : nat) : R :=
  if (j <=? N)%nat then sample N strat eq ^ j else - rest fcn min max N strat eq * sample N strat eq ^ (j - N).
(** A loop [for( j = 0; j != n; ++j ) acc += f(j)]. *)
Fixpoint loop_sum (n : nat) (f : nat -> R) : R := match n with 0%nat => 0 | S n' => loop_sum n' f + f n' end.
(** src/Pade.cpp:35-38 *)
Definition solve_pade (inverse : nat -> nat -> R) (fcn : R -> R) (min max : R) (N : nat) (strat : strategy) (i : nat) : R :=
  loop_sum (2 * N + 1) (fun j => inverse i j * rest fcn min max N strat j).
(** AmpGen/Pade.h:23-31, 33-43 *)
Record pade := Pade { co_f : nat -> R; co_g : nat -> R; lo : R; range : R }.
Definition make (r : nat -> R) (N : nat) (min max : R) : pade := Pade r (fun i => r (i + (N + 1))%nat) min (1 / (max - min)).
(** AmpGen/Pade.h:44-57: the variables f, g, acc after the turns of the loop. *)
Fixpoint turns (p : pade) (x : R) (n : nat) : R * R * R :=
  match n with
  | 0%nat => (0, 1, 1)
  | S i => let '(f, g, acc) := turns p x i in let f' := f + co_f p i * acc in let acc' := acc * x in (f', g + co_g p i * acc', acc')
  end.
Definition eval (p : pade) (N : nat) (s : R) : R :=
  let x := (s - lo p) * range p in let '(f, g, acc) := turns p x N in (f + co_f p N * acc) / g.
