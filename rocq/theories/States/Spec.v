(** Changes of frame, without reference to the code. *)
From Verif.Common Require Import Prelude.
From Coq Require Import Reals ZArith.
From Coquelicot Require Import Hierarchy Complex.
From Verif.Vertex Require Import Model Spec.
From Verif.External Require Import Model Spec.
Local Open Scope R_scope.
(** A Lorentz transformation A with inverse B that takes the momentum p to q. *)
Definition moves (A B : ten) (p : mom) (q : vec) : Prop :=
  (forall i j, Cconj (A i j) = A i j) /\ (forall a b, ip (mv A a) (mv A b) = ip a b) /\ (forall v, mv A (mv B v) = v) /\ mv A (P4 p) = q.
Definition at_rest_ (m : R) : vec := four (RtoC 0) (RtoC 0) (RtoC 0) (RtoC m).
(** The momentum of something without mass that flies along the third axis. *)
Definition ahead (E : R) : vec := four (RtoC 0) (RtoC 0) (RtoC E) (RtoC E).
(** The same for bispinors: the product with the conjugate is kept, and solutions of the Dirac equation with momentum p become those at rest. *)
Definition moves_spinors (e : Z) (A B : ten) (p : mom) (m : R) : Prop :=
  (forall a b, pairing (mv A a) (mv A b) = pairing a b) /\ (forall v, mv A (mv B v) = v) /\
  (forall v, dirac (RtoC (IZR e)) (P4 p) m v -> dirac (RtoC (IZR e)) (at_rest_ m) m (mv A v)).
(** The product of the overlaps of two states with the states of projections [l], summed. *)
Fixpoint summed (o : Z -> vec -> option C) (l : list Z) (v w : vec) : option C :=
  match l with
  | nil => Some (RtoC 0)
  | M :: r => match o M v, o M w, summed o r v w with Some a, Some b, Some t => Some (Cconj a * b + t)%C | _, _, _ => None end
  end.
Definition phase (x : R) : C := (cos x, sin x).
(** A turn about the third axis, of vectors and of bispinors. *)
Definition turn (phi : R) (v : vec) : vec :=
  four (RtoC (cos phi) * v I0 - RtoC (sin phi) * v I1)%C (RtoC (sin phi) * v I0 + RtoC (cos phi) * v I1)%C (v I2) (v I3).
Definition turn_spinor (phi : R) (u : vec) : vec :=
  four (phase (- phi / 2) * u I0)%C (phase (phi / 2) * u I1)%C (phase (- phi / 2) * u I2)%C (phase (phi / 2) * u I3)%C.
