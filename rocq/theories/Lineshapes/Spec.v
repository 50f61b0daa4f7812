(** What lineshapes should be, without reference to the expressions of the code. *)
From Verif.Common Require Import Prelude.
From Coq Require Import Reals.
From Coquelicot Require Import Hierarchy Rbar Derive Lim_seq Continuity RInt Complex.
From Coq Require Import List.
Local Open Scope R_scope.

(** ** Barriers *)
(** Two particles at rest in total: opposite momenta of size q, energies adding up to sqrt(s) *)
Definition breakup (s m1 m2 q : R) : Prop := 0 <= q /\ sqrt (q * q + m1 * m1) + sqrt (q * q + m2 * m2) = sqrt s.
(** Reverse Bessel polynomials. The spherical Hankel functions are e^(ix) theta_L(-ix) / x^(L+1), up to a constant. *)
Fixpoint theta2 (n : nat) (y : C) : C * C :=
  match n with
  | O => (RtoC 1, (y + RtoC 1)%C)
  | S m => let '(a, b) := theta2 m y in (b, (RtoC (2 * INR m + 3) * b + y * y * a)%C)
  end.
Definition theta (n : nat) (y : C) : C := fst (theta2 n y).
Definition abs2 (z : C) : R := fst z * fst z + snd z * snd z.
(** The transmission through the barrier of orbital angular momentum L at a momentum x in units of the inverse radius: what is left
    of the free wave. *)
Definition penetration (L : nat) (x : R) : R := / abs2 (theta L (0, x)).

(** ** Amplitudes *)
(** Elastic scattering with phase space rho: S = 1 + 2 i rho T is of modulus eta *)
Definition smatrix (rho : R) (T : C) : C := (RtoC 1 + RtoC 2 * Ci * RtoC rho * T)%C.
Definition elastic (rho : R) (T : C) : Prop := abs2 (smatrix rho T) = 1.
(** The phase of an amplitude rises with s: its cotangent falls. *)
Definition phase_rises (A : R -> C) : Prop := forall s s', 0 < s -> s < s' -> fst (A s') / snd (A s') < fst (A s) / snd (A s).
(** A density in the invariant mass E *)
Definition mass_integral (A : R -> C) (a b : R) : R := RInt (fun E => abs2 (A (E * E))) a b.

(** ** Several channels *)
Fixpoint total (n : nat) (f : nat -> C) : C := match n with O => RtoC 0 | S m => (total m f + f m)%C end.
Definition delta (i j : nat) : C := if Nat.eqb i j then RtoC 1 else RtoC 0.
(** S = 1 + 2 i sqrt(rho) T sqrt(rho) *)
Definition Smatrix (rho : nat -> R) (T : nat -> nat -> C) (i j : nat) : C :=
  (delta i j + RtoC 2 * Ci * RtoC (sqrt (rho i)) * T i j * RtoC (sqrt (rho j)))%C.
Definition unitary (n : nat) (S : nat -> nat -> C) : Prop :=
  forall i j, (i < n)%nat -> (j < n)%nat -> total n (fun k => S i k * Cconj (S j k))%C = delta i j.
(** The two-sided inverse of 1 - i K rho *)
Definition propagates (n : nat) (K : nat -> nat -> C) (rho : nat -> C) (F : nat -> nat -> C) : Prop :=
  forall i j, (i < n)%nat -> (j < n)%nat ->
    total n (fun k => (delta i k - Ci * K i k * rho k) * F k j)%C = delta i j /\
    total n (fun k => F i k * (delta k j - Ci * K k j * rho j))%C = delta i j.
Definition over {A} (f : A -> C) (l : list A) : C := fold_right (fun x acc => (f x + acc)%C) (RtoC 0) l.

(** ** S waves *)
Definition polar_form (modulus phase : R) : C := (modulus * cos phase, modulus * sin phase).
(** The generalised LASS shape as it is documented (AmpGen/Lineshapes.h:245-262), of its two phases *)
Definition glass_documented (R_ F_ deltaR deltaF : R) : C :=
  (polar_form (R_ * sin deltaR) (deltaR + 2 * deltaF) + polar_form (F_ * sin deltaF) deltaF)%C.
Definition degrees (x : R) : R := x * PI / 180.
