(** Covariances by name, affine functions, quadratic forms. *)
From Coq Require Import Reals.
From Verif.Errors Require Import Model.

Fixpoint over {A} (l : list A) (f : A -> R) : R := match l with [] => 0%R | x :: r => (f x + over r f)%R end.
Definition upto (n : nat) : list nat := seq 0 n.

(** As many rows as parameters. *)
Definition wf (p : propagator) : Prop := rows (cov p) = List.length (params p).
(** The covariance of two names: of all positions that bear them. *)
Definition named (p : propagator) (i : nat) (a : str) : bool := match nth_error (params p) i with Some q => str_eqb (pname q) a | None => false end.
Definition covariance (p : propagator) (a b : str) : R :=
  over (upto (List.length (params p))) (fun i => over (upto (List.length (params p))) (fun j => if named p i a && named p j b then entry (cov p) i j else 0%R)).
Definition in_names (p : propagator) (q : parameter) : bool := existsb (fun r => str_eqb (pname r) (pname q)) (params p).

(** All parameters are in the store. *)
Definition valid (p : propagator) (s : store) : Prop := forall q, In q (params p) -> addr q < List.length s.
(** [s'] differs from [s] at most in one parameter of the propagator. *)
Definition near (p : propagator) (s s' : store) : Prop := exists q, In q (params p) /\ List.length s' = List.length s /\ forall a, a <> addr q -> nth_error s' a = nth_error s a.

(** x^T C y *)
Definition form (n : nat) (C : nat -> nat -> R) (x y : nat -> R) : R := over (upto n) (fun i => over (upto n) (fun j => x i * C i j * y j)%R).
Definition symmetric (n : nat) (C : nat -> nat -> R) : Prop := forall i j, i < n -> j < n -> C i j = C j i.
Definition nonnegative (n : nat) (C : nat -> nat -> R) : Prop := forall x, (0 <= form n C x x)%R.
Definition positive (n : nat) (C : nat -> nat -> R) : Prop := forall x, (exists i, i < n /\ x i <> 0%R) -> (0 < form n C x x)%R.
Definition delta (i j : nat) : R := if Nat.eqb i j then 1%R else 0%R.
Definition right_inverse (n : nat) (C D : nat -> nat -> R) : Prop := forall i j, i < n -> j < n -> over (upto n) (fun k => C i k * D k j)%R = delta i j.

(** f = c + sum of w_a times the value at a *)
Definition affine (f : store -> num) (c : R) (w : nat -> R) : Prop := forall vs, f (map Some vs) = Some (c + over (upto (List.length vs)) (fun a => w a * nth a vs 0))%R.
Definition slope (p : propagator) (w : nat -> R) (i : nat) : R := match nth_error (params p) i with Some q => w (addr q) | None => 0%R end.
