(** What the sign of a decay stands for, stated without the recursion that computes it. *)
From Verif.Common Require Import Prelude.
From Coq Require Import Reals.
From Coquelicot Require Import Hierarchy Complex.
From Verif.Vertex Require Import Model.
From Verif.Parity Require Import Model.

(** The inversion of space: the three spatial components of each momentum change sign. *)
Definition flip (v : vec) : vec := fun i => match i with I3 => v i | _ => (- v i)%C end.
Definition inverted (e : nat -> vec) : nat -> vec := fun k => flip (e k).
(** A tensor seen in the inverted space, times a sign. *)
Definition seen (s : Z) (v : value) : value :=
  let c := RtoC (IZR s) in
  match v with
  | Sc x => Sc (c * x)%C
  | Ve v => Ve (fun i => (c * flip v i)%C)
  | Te T => Te (fun i j => (c * flip (fun k => flip (T k) j) i)%C)
  end.
(** The decaying particle has no spin, also seen through quasi-particles. *)
Fixpoint spinless (d : decay) : Prop :=
  match d with Quasi _ a => spinless a | Stable J _ | Two J _ _ _ _ | Three J _ _ _ => J = 0%nat end.
(** The scalar in a decay of a vector to a tensor and a scalar in D wave does not change sign, and a particle that decays to three has spin 2 at most
    (see C98_scalar_refuted and C98_spin3_refuted). *)
Fixpoint regular (d : decay) : Prop :=
  match d with
  | Stable _ _ => True
  | Three J _ _ _ => (J <= 4)%nat
  | Quasi _ a => regular a
  | Two J L _ a b => (J = 2%nat -> twoSpin a = 4%nat -> L = 2%nat -> finalStateParity b = Ok 1%Z) /\ regular a /\ regular b
  end.
(** Line shapes depend on invariant masses only. *)
Definition invariant (f : (nat -> vec) -> C) : Prop := forall e, f (inverted e) = f e.
(** A term as the covariant formalism gives it: coherent, with its spin factor. *)
Definition plain (t : term) : Prop := spinless (tree t) /\ regular (tree t) /\ invariant (propagator t) /\ bgSpin0 t = false /\ inco t = false.
(** The amplitude that the sum has for an event: couplings times expressions. *)
Fixpoint amplitude (ts : list term) (e : nat -> vec) : res C :=
  match ts with
  | [] => Ok (RtoC 0)
  | t :: r => bind (expression t e) (fun a => bind (amplitude r e) (fun y => Ok (coupling t * a + y)%C))
  end.
