(** What the documentation of AmpGen/Lineshapes.h:306-390 says of these shapes. *)
From Coq Require Import Reals.
From Coquelicot Require Import Hierarchy Complex.
From Verif.Shapes Require Import Model.
Local Open Scope R_scope.
(** A polynomial with coefficients c, and one in two variables. *)
Definition polynomial (n : nat) (c : nat -> R) (s : R) : R := sum_f_R0 (fun i => c i * s ^ i) n.
Definition polynomial2 (n : nat) (c : nat -> nat -> R) (s t : R) : R := sum_f_R0 (fun i => sum_f_R0 (fun j => c i j * s ^ i * t ^ j) n) n.
(** A particle of mass m, and its kinetic energy in the rest frame of P. *)
Definition on_shell (p : p4) (m : R) : Prop := 0 <= m /\ pe p = sqrt (m * m + px p * px p + py p * py p + pz p * pz p).
Definition kinetic (p P : p4) (m : R) : R := dot p P / sqrt (dot P P) - m.
Definition eta_z (pp pm p0 : p4) (mp mm m0 : R) : R :=
  let P := plus (plus pp pm) p0 in
  1 - 107 / 100 * (3 * kinetic p0 P m0 / (kinetic pp P mp + kinetic pm P mm + kinetic p0 P m0) - 1).
(** The largest part of the kinetic energy that the third particle can have leaves the distribution positive; so for the masses of the eta. *)
Definition light (M mp mm m0 : R) : Prop := 321 * ((M - m0) * (M - m0) - (mp + mm) * (mp + mm)) < 414 * M * (M - mp - mm - m0).
(** Parameters with a meaning: masses, couplings and widths that are not negative, above the zero of the amplitude. *)
Definition physical (b : bugg) (s : R) : Prop :=
  0 < bM b /\ 0 < b1 b + b2 b * s /\ 0 <= g_4pi b /\ 0 <= g_2K b /\ 0 <= g_2eta b /\ sA b < s /\ sA b < bM b * bM b /\ 4 * mPiPlus * mPiPlus < s.
(** The amplitude of scattering of two pions. *)
Definition scattering (b : bugg) (s : R) : C := (gamma_2pi b s * BW b s)%C.
