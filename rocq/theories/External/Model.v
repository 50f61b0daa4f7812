(** The spin states of particles at the ends of a decay: src/Particle.cpp:531-597 (externalSpinTensor), 833-847
    (setPolarisationState), 440-461 (their use in getExpression) and src/ParticleProperties.cpp:27-39 (polarisations).

    Real arithmetic instead of floating point. Expressions are represented by the complex numbers they evaluate to, as in
    Vertex/Model.v, whose matrices are used. The momentum P() (src/Particle.cpp:233-253) of the particle is given; the mass is
    that of the particle's entry in the table of particles, which the code does not compare with the momentum. [make_cse],
    [st] and the messages are not represented. *)
From Verif.Common Require Import Prelude.
From Coq Require Import Reals ZArith.
From Coquelicot Require Import Hierarchy Complex.
From Verif.Vertex Require Import Model.
Local Open Scope R_scope.

(** AmpGen/Particle.h:100 *)
Inductive basis := Dirac | Weyl.
(** 542-545: the four components pX, pY, pZ, pE. *)
Record mom := { px : R; py : R; pz : R; en : R }.
Definition P4 (p : mom) : vec := fun i => RtoC (match i with I0 => px p | I1 => py p | I2 => pz p | I3 => en p end).
Definition four (a b c d : C) : vec := fun i => match i with I0 => a | I1 => b | I2 => c | I3 => d end.
(** 546 *)
Definition pP (p : mom) : R := sqrt (px p * px p + py p * py p + pz p * pz p).
(** 548-549 *)
Definition zz (p : mom) : C := (RtoC (px p) + Ci * RtoC (py p))%C.
Definition zb (p : mom) : C := (RtoC (px p) - Ci * RtoC (py p))%C.
(** The conditional expression; the condition is a comparison of reals. *)
Definition Ternary {P Q : Prop} (c : {P} + {Q}) {A} (t f : A) : A := if c then t else f.
Definition tiny : R := 1 / 1000000.

(** 554-557 *)
Definition invPT2 (p : mom) : R := Ternary (Rlt_dec tiny (px p * px p + py p * py p)) (1 / (px p * px p + py p * py p)) 0.
Definition invP (p : mom) : R := Ternary (Rlt_dec tiny (pP p)) (1 / pP p) 0.
Definition pZoverP (p : mom) : R := Ternary (Rlt_dec tiny (pP p)) (pz p / pP p) 1.
Definition ff (p : mom) : R := (pP p - pz p) * invPT2 p.
(** 553, 558-560 *)
Definition weyl_vector (m : R) (p : mom) (polState : Z) : option vec :=
  let N := RtoC (1 / sqrt 2) in
  if (polState =? 1)%Z then Some (fun i => (N * four (RtoC (- pZoverP p) + Ci * zz p * RtoC (py p) * RtoC (ff p) * RtoC (invP p))
      (- Ci * RtoC (pZoverP p) - Ci * zz p * RtoC (px p) * RtoC (ff p) * RtoC (invP p)) (zz p * RtoC (invP p)) (RtoC 0) i)%C)
  else if (polState =? -1)%Z then Some (fun i => (N * four (RtoC (pZoverP p) + Ci * zb p * RtoC (py p) * RtoC (ff p) * RtoC (invP p))
      (- Ci * RtoC (pZoverP p) - Ci * zb p * RtoC (px p) * RtoC (ff p) * RtoC (invP p)) (- zb p * RtoC (invP p)) (RtoC 0) i)%C)
  else if (polState =? 0)%Z then Some (four (RtoC (px p * en p * invP p / m)) (RtoC (py p * en p * invP p / m)) (RtoC (pZoverP p * en p / m)) (RtoC (pP p / m)))
  else None.
(** 564-567 *)
Definition dirac_vector (m : R) (p : mom) (polState : Z) : option vec :=
  let N := RtoC (1 / (m * (en p + m))) in
  let r := RtoC (1 / sqrt 2) in
  if (polState =? 1)%Z then Some (fun i => (- (four (RtoC 1 + zz p * RtoC (px p) * N) (Ci + zz p * RtoC (py p) * N) (zz p * RtoC (pz p) * N) (zz p * RtoC (1 / m)) i) * r)%C)
  else if (polState =? -1)%Z then Some (fun i => (four (RtoC 1 + zb p * RtoC (px p) * N) (- Ci + zb p * RtoC (py p) * N) (zb p * RtoC (pz p) * N) (zb p * RtoC (1 / m)) i * r)%C)
  else if (polState =? 0)%Z then Some (four (RtoC (px p * pz p) * N)%C (RtoC (py p * pz p) * N)%C (RtoC 1 + RtoC (pz p * pz p) * N)%C (RtoC (pz p / m)))
  else None.
(** 574-583: xi[0] and xi[1], by the index [ind]. *)
Definition aligned (p : mom) := Rlt_dec (Rabs (pP p + pz p)) tiny.
Definition xi_norm (p : mom) : R := 1 / sqrt (2 * pP p * (pP p + pz p)).
Definition xi (p : mom) (ind : nat) : C * C :=
  match ind with
  | O => (Ternary (aligned p) (RtoC 1) (RtoC (xi_norm p * (pP p + pz p))), Ternary (aligned p) (RtoC 0) (RtoC (xi_norm p) * (RtoC (px p) + Ci * RtoC (py p)))%C)
  | _ => (Ternary (aligned p) (RtoC 0) (RtoC (xi_norm p) * (- RtoC (px p) + Ci * RtoC (py p)))%C, Ternary (aligned p) (RtoC 1) (RtoC (xi_norm p * (pP p + pz p))))
  end.
Definition weyl_spinor (id : Z) (m : R) (p : mom) (polState : Z) : option vec :=
  let N := RtoC (sqrt ((en p + m) / (2 * m))) in
  let k := RtoC (pP p * IZR polState / (en p + m)) in
  let ind := if (polState =? 1)%Z then 0%nat else 1%nat in
  let x := xi p ind in
  if (id >? 0)%Z then Some (fun i => (N * four (fst x) (snd x) (k * fst x) (k * snd x) i)%C)
  else if (id <? 0)%Z then Some (fun i => (N * Ci * four (k * fst x) (k * snd x) (fst x) (snd x) i)%C)
  else None.
(** 587-591 *)
Definition dirac_spinor (id : Z) (m : R) (p : mom) (polState : Z) : option vec :=
  let N := RtoC (sqrt ((en p + m) / (2 * m))) in
  let d := RtoC (1 / (en p + m)) in
  let pZ := RtoC (pz p) in
  if ((id >? 0) && (polState =? 1))%Z then Some (fun i => (N * four (RtoC 1) (RtoC 0) (pZ * d) (zz p * d) i)%C)
  else if ((id >? 0) && (polState =? -1))%Z then Some (fun i => (N * four (RtoC 0) (RtoC 1) (zb p * d) (- pZ * d) i)%C)
  else if ((id <? 0) && (polState =? 1))%Z then Some (fun i => (N * four (pZ * d) (zz p * d) (RtoC 1) (RtoC 0) i)%C)
  else if ((id <? 0) && (polState =? -1))%Z then Some (fun i => (N * four (zb p * d) (- pZ * d) (RtoC 0) (RtoC 1) i)%C)
  else None.
(** 531-597: one number for spin 0; a vector or bispinor; [Missing] is the tensor returned with the message "Spin tensors not
    implemented". *)
Inductive spin_tensor := One | Four (v : vec) | Missing.
Definition of_vec (o : option vec) : spin_tensor := match o with Some v => Four v | None => Missing end.
Definition externalSpinTensor (b : basis) (twoSpin id : Z) (m : R) (p : mom) (polState : Z) : spin_tensor :=
  if (twoSpin =? 0)%Z then One
  else if (twoSpin =? 2)%Z then of_vec (match b with Weyl => weyl_vector m p polState | Dirac => dirac_vector m p polState end)
  else if (twoSpin =? 1)%Z then of_vec (match b with Weyl => weyl_spinor id m p polState | Dirac => dirac_spinor id m p polState end)
  else Missing.

(** src/Particle.cpp:833-847, src/ParticleProperties.cpp:158-174; C++ division of integers. *)
Definition isFermion (twoSpin : Z) : bool := (Z.rem twoSpin 2 =? 1)%Z.
Definition setPolarisationState (twoSpin state : Z) : Z :=
  if (isFermion twoSpin && ((state >? twoSpin) || (state =? 0)))%Z then 999%Z
  else if (negb (isFermion twoSpin) && (state >? Z.quot twoSpin 2))%Z then 999%Z
  else state.
(** src/ParticleProperties.cpp:27-39; [photon] is pdgID == 22. *)
Definition polarisations (twoSpin id : Z) : list Z :=
  if (twoSpin =? 0)%Z then 0%Z :: nil
  else if (id =? 22)%Z then 1%Z :: (-1)%Z :: nil
  else if (twoSpin =? 1)%Z then 1%Z :: (-1)%Z :: nil
  else if (twoSpin =? 2)%Z then 1%Z :: 0%Z :: (-1)%Z :: nil
  else if (twoSpin =? 4)%Z then 2%Z :: 1%Z :: 0%Z :: (-1)%Z :: (-2)%Z :: nil
  else 0%Z :: nil.

(** src/Particle.cpp:443-461: the factor of the decaying particle, whose spin tensor [st] has four entries, in one state. *)
Definition spinFactor (b : basis) (twoSpin id : Z) (m : R) (p : mom) (st : vec) (polState : Z) : option C :=
  match externalSpinTensor b twoSpin id m p (setPolarisationState twoSpin polState) with
  | Four v => if (twoSpin =? 1)%Z then Some (sum4 (fun a => (Bar v a * st a)%C)) else Some (dot (fun i => Cconj (v i)) st)
  | _ => None
  end.
