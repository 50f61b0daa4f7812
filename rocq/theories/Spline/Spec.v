(** Natural cubic splines, without reference to the code. *)
From Coq Require Import Reals List.
Import ListNotations.
Local Open Scope R_scope.

(** c0 + c1 u + c2 u^2 + c3 u^3, its derivative and its second derivative *)
Record cubic := Cubic { c0 : R; c1 : R; c2 : R; c3 : R }.
Definition at_ (p : cubic) (u : R) : R := c0 p + c1 p * u + c2 p * u ^ 2 + c3 p * u ^ 3.
Definition slope (p : cubic) (u : R) : R := c1 p + 2 * c2 p * u + 3 * c3 p * u ^ 2.
Definition curvature (p : cubic) (u : R) : R := 2 * c2 p + 6 * c3 p * u.

(** [p k] is the piece between the knots k and k + 1, of distance [h], for the knots 0, ..., n - 1 of values [y]: the pieces
    pass through the knots, have the same slope and curvature where they meet, and no curvature at the ends. *)
Record natural (n : nat) (h : R) (y : nat -> R) (p : nat -> cubic) : Prop := {
  left_value : forall k, (k + 1 < n)%nat -> at_ (p k) 0 = y k;
  right_value : forall k, (k + 1 < n)%nat -> at_ (p k) h = y (k + 1)%nat;
  slopes : forall k, (k + 2 < n)%nat -> slope (p k) h = slope (p (k + 1)%nat) 0;
  curvatures : forall k, (k + 2 < n)%nat -> curvature (p k) h = curvature (p (k + 1)%nat) 0;
  first_end : (1 < n)%nat -> curvature (p 0%nat) 0 = 0;
  last_end : (1 < n)%nat -> curvature (p (n - 2)%nat) h = 0 }.

(** [W] is a right inverse of the matrix [M] of that size. *)
Fixpoint sum (n : nat) (f : nat -> R) : R := match n with O => 0 | S k => sum k f + f k end.
Definition delta (i j : nat) : R := if Nat.eqb i j then 1 else 0.
Definition right_inverse (size : nat) (M W : nat -> nat -> R) : Prop :=
  forall i k, (i < size)%nat -> (k < size)%nat -> sum size (fun j => M i j * W j k) = delta i k.

(** Twice continuously differentiable between a and b, with the second derivative going to zero at both ends. *)
Definition tends (f : R -> R) (D : R -> Prop) (l x0 : R) : Prop :=
  forall eps, 0 < eps -> exists d, 0 < d /\ forall x, D x -> Rabs (x - x0) < d -> Rabs (f x - l) < eps.
Definition smooth (f : R -> R) (a b : R) : Prop :=
  exists f1 f2, (forall x, a < x < b -> derivable_pt_lim f x (f1 x) /\ derivable_pt_lim f1 x (f2 x) /\ continuity_pt f2 x) /\
    tends f2 (fun x => a < x < b) 0 a /\ tends f2 (fun x => a < x < b) 0 b.

(** A decimal number with six digits next to c. *)
Definition six_digits (c d : R) : Prop :=
  (c = 0 /\ d = 0) \/ exists (m e : Z), (100000 <= Z.abs m < 1000000)%Z /\ d = IZR m * powerRZ 10 e /\ Rabs (c - d) <= powerRZ 10 e / 2.
(** The constants of the generated code of a spline with n knots at distance h. *)
Definition constants (n : nat) (min max h : R) : list R :=
  [min; max; h; / h; h * / 6; / 2; / (6 * h); 1; 2; INR n; INR n + 1; INR n - 1; 2 * INR n].
