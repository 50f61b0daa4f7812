(** Minkowski space and the notions the properties of the spin tensors are stated with. The metric is +,-,-,- with the
    energy as the last component. *)
From Verif.Common Require Import Prelude.
From Coq Require Import Reals.
From Coquelicot Require Import Hierarchy Complex.
From Verif.Vertex Require Import Model.
Local Open Scope C_scope.

(** The product of two vectors. *)
Definition ip (a b : vec) : C := a I3 * b I3 - a I0 * b I0 - a I1 * b I1 - a I2 * b I2.
Definition vadd (a b : vec) : vec := fun i => a i + b i.
Definition vsc (x : C) (a : vec) : vec := fun i => x * a i.
Definition tadd (A B : ten) : ten := fun i j => A i j + B i j.
Definition tsc (x : C) (A : ten) : ten := fun i j => x * A i j.
(** The contraction of one index of a tensor with a vector. *)
Definition on_left (v : vec) (T : ten) : vec := fun j => ip v (fun i => T i j).
Definition on_right (T : ten) (v : vec) : vec := fun i => ip (T i) v.
Definition zero : vec := fun _ => 0.
(** A vector, and a tensor in both indices, that has no component along P. *)
Definition transverse (P v : vec) : Prop := ip P v = 0.
Definition transverse2 (P : vec) (T : ten) : Prop := on_left P T = zero /\ on_right T P = zero.
Definition symmetric (T : ten) : Prop := forall i j, T i j = T j i.
Definition trace (T : ten) : C := T I3 I3 - T I0 I0 - T I1 I1 - T I2 I2.
(** The states of spin 2 of a particle of momentum P. *)
Definition spin2_state (P : vec) (T : ten) : Prop := symmetric T /\ transverse2 P T /\ trace T = 0.

(** A tensor of rank 4 applied to one of rank 2: the first two indices contracted. *)
Definition contract2 (W : ix -> ix -> ix -> ix -> C) (T : ten) : ten := fun a b =>
  ip (fun _ => 1) (fun m => ip (fun _ => 1) (fun n => W m n a b * T m n)).

(** The volume spanned by four vectors. *)
Definition det3 (a b c : vec) (i j k : ix) : C :=
  a i * (b j * c k - b k * c j) - a j * (b i * c k - b k * c i) + a k * (b i * c j - b j * c i).
Definition volume (a b c d : vec) : C :=
  a I0 * det3 b c d I1 I2 I3 - a I1 * det3 b c d I0 I2 I3 + a I2 * det3 b c d I0 I1 I3 - a I3 * det3 b c d I0 I1 I2.

(** Linear maps of vectors, of tensors. *)
Definition app (A : ten) (v : vec) : vec := fun i => A i I0 * v I0 + A i I1 * v I1 + A i I2 * v I2 + A i I3 * v I3.
Definition tapp (A : ten) (T : ten) : ten := fun i j => app A (fun k => app A (T k) j) i.
(** A linear map that keeps all products and multiplies volumes by [s]; it has an inverse [B]. [s] is 1 for rotations and
    boosts and -1 for the reflection of space. *)
Definition lorentz (A B : ten) (s : C) : Prop :=
  (forall a b, ip (app A a) (app A b) = ip a b) /\ (forall v, app A (app B v) = v) /\
  (forall a b c d, volume (app A a) (app A b) (app A c) (app A d) = s * volume a b c d).
(** A matrix of bispinors that stands for the map [A]: it carries the matrix of every vector to that of its image, and
    commutes with Gamma5 up to the sign [s]. [U'] is its inverse. *)
Definition stands (U U' A : ten) (s : C) : Prop :=
  mm U U' = Identity /\ mm U' U = Identity /\ (forall p, mm (mm U (slash p)) U' = slash (app A p)) /\
  mm U Gamma5 = msc s (mm Gamma5 U).
(** It keeps the product of bispinors. *)
Definition keeps_bar (U U' : ten) : Prop := forall v, Bar (mv U v) = (fun a => sum4 (fun b => Bar v b * U' b a)).

(** A real momentum of positive mass M. *)
Definition massive (P : vec) (M : R) : Prop := (forall i, Im (P i) = 0%R) /\ ip P P = RtoC (M * M) /\ (0 < M)%R.
(** The Dirac equation for a particle (e = 1) and for an antiparticle (e = -1). *)
Definition dirac (e : C) (P : vec) (M : R) (v : vec) : Prop := mv (slash P) v = vsc (e * RtoC M) v.
(** States of spin 3/2: a bispinor for each direction, each solving the equation, transverse, and with no part of spin 1/2. *)
Definition spin3h_state (e : C) (P : vec) (M : R) (V : ix -> vec) : Prop :=
  (forall m, dirac e P M (V m)) /\
  (forall a, ip P (fun m => V m a) = 0) /\
  (forall a, ip (fun _ => 1) (fun m => mv (Gamma m) (V m) a) = 0).
(** A map of the vector index and of the bispinor index of such a state; the image of a tensor of rank 4 with two indices of each
    kind is applied to states by [contract3]. *)
Definition rapp (A U : ten) (V : ix -> vec) : ix -> vec := fun m a => app A (fun k => mv U (V k) a) m.
Definition contract3 (W : ix -> ix -> ten) (V : ix -> vec) : ix -> vec := fun m a => ip (fun _ => 1) (fun n => mv (W m n) (V n) a).
