(** The ends of a helicity amplitude: src/Wigner.cpp:187-205 (the states of a particle at rest), 264-288 (their overlap with the
    state of a particle in the laboratory) and 207-223 (couplings given by the user).

    Numbers, vectors and matrices as in External/Model.v and Vertex/Model.v. The matrix of the inverse of the frame
    (src/Wigner.cpp:270) and the state of the particle (externalSpinTensor, area External) are given; messages, debugging output and
    the option helicityAmplitude::NoSpinAlign are not represented. *)
From Verif.Common Require Import Prelude.
From Coq Require Import Reals ZArith.
From Coquelicot Require Import Hierarchy Complex.
From Verif.Vertex Require Import Model.
From Verif.External Require Import Model.
Local Open Scope R_scope.

(** src/Wigner.cpp:187-195; other states give the empty tensor. *)
Definition basisSpinor (polState id : Z) : option vec :=
  if (id >? 0)%Z && (polState =? 1)%Z then Some (four (RtoC 1) (RtoC 0) (RtoC 0) (RtoC 0))
  else if (id >? 0)%Z && (polState =? -1)%Z then Some (four (RtoC 0) (RtoC 1) (RtoC 0) (RtoC 0))
  else if (id <? 0)%Z && (polState =? 1)%Z then Some (four (RtoC 0) (RtoC 0) (RtoC 1) (RtoC 0))
  else if (id <? 0)%Z && (polState =? -1)%Z then Some (four (RtoC 0) (RtoC 0) (RtoC 0) (RtoC 1))
  else None.
(** src/Wigner.cpp:197-205 *)
Definition basisVector (polState : Z) : option vec :=
  let N := 1 / sqrt 2 in
  if (polState =? 0)%Z then Some (four (RtoC 0) (RtoC 0) (RtoC 1) (RtoC 0))
  else if (polState =? 1)%Z then Some (fun i => (RtoC (- N) * four (RtoC 1) Ci (RtoC 0) (RtoC 0) i)%C)
  else if (polState =? -1)%Z then Some (fun i => (RtoC N * four (RtoC 1) (- Ci) (RtoC 0) (RtoC 0) i)%C)
  else None.
(** src/Wigner.cpp:264-288: a stable particle, [inv] the matrix of inverseMyTransform in the representation of the particle. The projection is twice
    Mz; the conversion of Mz to int drops a fraction. Spins other than 1/2 and 1 go on to daughters, which the particle does not have. *)
Definition overlap (twoSpin id : Z) (inv : ten) (twoMz : Z) (labPol : vec) : option C :=
  if (twoSpin =? 0)%Z then Some (if (twoMz =? 0)%Z then RtoC 1 else RtoC 0)
  else if (twoSpin =? 1)%Z then
    match basisSpinor twoMz id with Some u => Some (sum4 (fun a => (Bar (mv inv u) a * labPol a)%C)) | None => None end
  else if (twoSpin =? 2)%Z then
    match basisVector (Z.quot twoMz 2) with Some e => Some (dot (fun i => Cconj (mv inv e i)) labPol) | None => None end
  else None.

(** AmpGen/Wigner.h:42-49: the members that are used. *)
Record LS := { factor : R; m1 : R; m2 : R }.
(** src/Wigner.cpp:209: the values of a parameter, 0 if there is no such option (C16 is about reading them). *)
Definition things (line : option (list R)) : list R := match line with Some l => l | None => 0 :: nil end.
(** src/Wigner.cpp:210-217: an incomplete set of three is reported, and then read behind the end of the vector. *)
Fixpoint triples (l : list R) : res (list LS) :=
  match l with
  | nil => Ok nil
  | a :: b :: c :: r => bind (triples r) (fun t => Ok ({| factor := a; m1 := b; m2 := c |} :: t))
  | _ => UB
  end.
(** src/Wigner.cpp:207-223 *)
Definition userHelicityCouplings (line : option (list R)) : res (list LS) :=
  bind (triples (things line)) (fun t => match t with nil => Throw | _ => Ok t end).
