(** Spin states as polynomials: the state of spin j and projection m is x^(j+m) y^(j-m) / sqrt((j+m)! (j-m)!) in the two
    components x, y of a spinor. Doubled spins and projections. *)
From Coq Require Import Reals List ZArith Lia Factorial.
From Verif.Wigner Require Export Spec.
Import ListNotations.
Local Open Scope R_scope.

Definition ups (J M : Z) : nat := Z.to_nat ((J + M) / 2).
Definition state (J M : Z) (x y : R) : R := x ^ ups J M * y ^ ups J (- M) / sqrt (INR (fact (ups J M)) * INR (fact (ups J (- M)))).
(** The projections of J *)
Definition all_projections (J : Z) : list Z := map (fun i => - J + 2 * Z.of_nat i)%Z (seq 0 (S (Z.to_nat J))).
(** A spinor turned by the angle a about the y axis. *)
Definition turn (a x y : R) : R * R := (cos (a / 2) * x - sin (a / 2) * y, sin (a / 2) * x + cos (a / 2) * y).
(** [d] are the coefficients of the turned state. *)
Definition rotates (J M : Z) (a : R) (d : Z -> R) : Prop :=
  forall x y, state J M (fst (turn a x y)) (snd (turn a x y)) = sum_over (all_projections J) (fun N => d N * state J N x y).
