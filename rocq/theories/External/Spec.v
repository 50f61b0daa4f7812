(** States of spin 1 and of spin 1/2 of a particle with a given momentum, stated without reference to the code. *)
From Verif.Common Require Import Prelude.
From Coq Require Import Reals ZArith.
From Coquelicot Require Import Hierarchy Complex.
From Verif.Vertex Require Import Model Spec.
From Verif.External Require Import Model.
Local Open Scope R_scope.

(** A particle of mass m and the energy that goes with its momentum. *)
Definition on_shell (p : mom) (m : R) : Prop := 0 < m /\ 0 < en p /\ en p * en p = px p * px p + py p * py p + pz p * pz p + m * m.
Definition length3 (p : mom) : R := sqrt (px p * px p + py p * py p + pz p * pz p).
Definition delta (s t : Z) : C := if Z.eq_dec s t then RtoC 1 else RtoC 0.
Definition cbar (v : vec) : vec := fun i => Cconj (v i).
(** The metric, energy last. *)
Definition metric (i j : ix) : C := match i, j with I3, I3 => RtoC 1 | I0, I0 | I1, I1 | I2, I2 => (- RtoC 1)%C | _, _ => RtoC 0 end.

(** Three states of spin 1: no component along the momentum, orthonormal, and complete. *)
Definition vector_states (p : mom) (m : R) (e : Z -> vec) : Prop :=
  (forall s, In s (1 :: 0 :: -1 :: nil)%Z -> ip (P4 p) (e s) = RtoC 0) /\
  (forall s t, In s (1 :: 0 :: -1 :: nil)%Z -> In t (1 :: 0 :: -1 :: nil)%Z -> ip (cbar (e s)) (e t) = (- delta s t)%C) /\
  (forall i j, (e 1%Z i * Cconj (e 1%Z j) + e 0%Z i * Cconj (e 0%Z j) + e (-1)%Z i * Cconj (e (-1)%Z j) = - metric i j + P4 p i * P4 p j * RtoC (1 / (m * m)))%C).
(** The component along the momentum of the angular momentum of a vector is i p x e; a state has helicity s if it is s|p| e. *)
Definition helicity_vector (p : mom) (s : R) (e : vec) : Prop :=
  (Ci * (RtoC (py p) * e I2 - RtoC (pz p) * e I1) = RtoC (s * length3 p) * e I0)%C /\
  (Ci * (RtoC (pz p) * e I0 - RtoC (px p) * e I2) = RtoC (s * length3 p) * e I1)%C /\
  (Ci * (RtoC (px p) * e I1 - RtoC (py p) * e I0) = RtoC (s * length3 p) * e I2)%C.
(** The states at rest with component s of the spin along the third axis, and what a boost to the momentum p without rotation
    makes of a vector and a bispinor. *)
Definition rest_vector (s : Z) : vec :=
  if (s =? 1)%Z then four (RtoC (- / sqrt 2)) (Ci * RtoC (- / sqrt 2))%C (RtoC 0) (RtoC 0)
  else if (s =? 0)%Z then four (RtoC 0) (RtoC 0) (RtoC 1) (RtoC 0)
  else four (RtoC (/ sqrt 2)) (- Ci * RtoC (/ sqrt 2))%C (RtoC 0) (RtoC 0).
Definition along (p : mom) (e : vec) : C := (RtoC (px p) * e I0 + RtoC (py p) * e I1 + RtoC (pz p) * e I2)%C.
Definition boosted_vector (p : mom) (m : R) (e : vec) : vec := fun i =>
  match i with
  | I3 => (along p e * RtoC (1 / m))%C
  | _ => (e i + P4 p i * along p e * RtoC (1 / (m * (en p + m))))%C
  end.
Definition rest_spinor (e s : Z) : vec :=
  if (e =? 1)%Z then (if (s =? 1)%Z then four (RtoC 1) (RtoC 0) (RtoC 0) (RtoC 0) else four (RtoC 0) (RtoC 1) (RtoC 0) (RtoC 0))
  else (if (s =? 1)%Z then four (RtoC 0) (RtoC 0) (RtoC 1) (RtoC 0) else four (RtoC 0) (RtoC 0) (RtoC 0) (RtoC 1)).
Definition boosted_spinor (e : Z) (p : mom) (m : R) (u : vec) : vec := fun a =>
  ((RtoC (IZR e) * mv (slash (P4 p)) u a + RtoC m * u a) * RtoC (1 / sqrt (2 * m * (en p + m))))%C.

(** Two states of spin 1/2 of a particle (e = 1) or an antiparticle (e = -1). *)
Definition pairing (u v : vec) : C := sum4 (fun a => (Bar u a * v a)%C).
Definition spinor_states (e : Z) (p : mom) (m : R) (u : Z -> vec) : Prop :=
  (forall s, In s (1 :: -1 :: nil)%Z -> dirac (RtoC (IZR e)) (P4 p) m (u s)) /\
  (forall s t, In s (1 :: -1 :: nil)%Z -> In t (1 :: -1 :: nil)%Z -> pairing (u s) (u t) = (RtoC (IZR e) * delta s t)%C) /\
  (forall a b, (u 1%Z a * Bar (u 1%Z) b + u (-1)%Z a * Bar (u (-1)%Z) b = RtoC (1 / (2 * m)) * (slash (P4 p) a b + RtoC (IZR e * m) * Identity a b))%C).
(** Twice the component of the spin along the momentum, times |p|: the Pauli matrices on each half of the bispinor. *)
Definition spin_along (p : mom) (u : vec) : vec :=
  let z := (RtoC (px p) + Ci * RtoC (py p))%C in let w := (RtoC (px p) - Ci * RtoC (py p))%C in let q := RtoC (pz p) in
  four (q * u I0 + w * u I1)%C (z * u I0 - q * u I1)%C (q * u I2 + w * u I3)%C (z * u I2 - q * u I3)%C.
Definition helicity_spinor (p : mom) (s : R) (u : vec) : Prop := forall a, spin_along p u a = (RtoC (s * length3 p) * u a)%C.
(** Charge conjugation of a bispinor. *)
Definition conjugate_spinor (u : vec) : vec := fun a => (Ci * mv (Gamma I1) (cbar u) a)%C.

(** The rate summed over the states of the decaying particle. *)
Fixpoint total_rate (f : Z -> option C) (l : list Z) : option R :=
  match l with
  | nil => Some 0
  | s :: r => match f s, total_rate f r with Some a, Some t => Some (Cmod a * Cmod a + t) | _, _ => None end
  end.

(** Momenta for which the helicity states of the code are meant: away from the third axis, or exactly along it, or zero, for
    vectors; away from the negative third axis, or zero, for bispinors. *)
Definition clear_of_axis (p : mom) : Prop := tiny < px p * px p + py p * py p \/ (px p = 0 /\ py p = 0 /\ (pz p = 0 \/ tiny < Rabs (pz p))).
Definition clear_of_minus_z (p : mom) : Prop := tiny <= length3 p + pz p \/ (px p = 0 /\ py p = 0 /\ pz p = 0).
(** A momentum without mass. *)
Definition light_like (p : mom) : Prop := 0 < en p /\ en p * en p = px p * px p + py p * py p + pz p * pz p.
