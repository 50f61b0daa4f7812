(** What boosts and rotations do, without reference to the matrices of the code. *)
From Verif.Common Require Import Prelude.
From Coq Require Import Reals.
From Verif.Kinematics Require Import Model Spec.
From Verif.Transform Require Import Model.
Local Open Scope R_scope.

(** The argument of a rotation is a cosine, that of a boost a Lorentz factor; the axis is of length one. *)
Definition valid (t : transform) : Prop :=
  dot3 (axis t) (axis t) = 1 /\ match kind t with Rotate => -1 <= arg t <= 1 | Boost => 1 <= arg t end.
(** Components of what is transformed *)
Definition dimension (repr : representation) : nat := match repr with Spinor => 2 | _ => 4 end.
(** A momentum as a vector; the energy comes last. *)
Definition vec (p : p4) : list cx := [cof (vx (vect p)); cof (vy (vect p)); cof (vz (vect p)); cof (en p)].

(** Sequences that can be built. In the spinor representation nothing is joined to the empty sequence. *)
Inductive built (repr : representation) : sequence -> Prop :=
| built_empty : built repr empty
| built_of t : built repr (of_transform t)
| built_pair t t' : built repr (pair_of t t')
| built_push s t : built repr s -> built repr (push_back s t)
| built_push_all s s' : built repr s -> built repr s' -> built repr (push_back_all s s')
| built_clear s : built repr s -> built repr (clear s)
| built_inverse s : built repr s -> built repr (inverse s)
| built_join s s' : built repr s -> built repr s' -> (repr = Spinor -> transforms s <> [] /\ transforms s' <> []) -> built repr (join s s').
(** One transform after the other *)
Fixpoint one_by_one (ts : list transform) (v : list cx) (repr : representation) : res (list cx) :=
  match ts with [] => Ok v | t :: r => bind (apply1 t v repr) (fun w => one_by_one r w repr) end.

(** What a spinor carries: a density, and minus the expectation of the three Pauli matrices. *)
Definition norm2 (a : cx) : R := re a * re a + im a * im a.
Definition current (a b : cx) : p4 :=
  P4 (V3 (- (2 * (re a * re b + im a * im b))) (- (2 * (re a * im b - im a * re b))) (- (norm2 a - norm2 b))) (norm2 a + norm2 b).
(** The area of two spinors *)
Definition area (a b a' b' : cx) : cx := cadd (cmul a b') (copp (cmul b a')).
(** Pauli matrices, and the matrix of a momentum in four dimensions with E^2-p^2 as its square: upper and lower halves *)
Definition sigma (p : v3) (a b : cx) : cx * cx :=
  (cadd (cmul (cof (vz p)) a) (cmul (Cx (vx p) (- vy p)) b), cadd (cmul (Cx (vx p) (vy p)) a) (cmul (cof (- vz p)) b)).
Definition slash (p : p4) (a b c d : cx) : list cx :=
  let '(u, v) := sigma (vect p) a b in let '(u', v') := sigma (vect p) c d in
  [cadd (cmul (cof (en p)) a) (copp u'); cadd (cmul (cof (en p)) b) (copp v'); cadd u (copp (cmul (cof (en p)) c)); cadd v (copp (cmul (cof (en p)) d))].
(** The product of two bispinors: conj(w) gamma_0 w' *)
Definition conj (a : cx) : cx := Cx (re a) (- im a).
Definition bar (a b c d a' b' c' d' : cx) : cx :=
  cadd (cadd (cmul (conj a) a') (cmul (conj b) b')) (copp (cadd (cmul (conj c) c') (cmul (conj d) d'))).

(** A momentum that is to be brought to rest: squared lengths below the threshold of the code are zero. *)
Definition away (d : R) : Prop := d = 0 \/ / 10 ^ 15 < d.
Definition pT2 (P : p4) : R := vx (vect P) * vx (vect P) + vy (vect P) * vy (vect P).
