(** The intrinsic sign of a decay under the inversion of space, and the function AMP which uses it: src/Particle.cpp:233-261, 282-292, 423-500,
    502-528, 750-762; src/Vertex.cpp:34-61; src/CoherentSum.cpp:180-200; src/ParticleProperties.cpp:182-197.

    Expressions are represented by the complex numbers they evaluate to for an event, tensors as in Verif.Vertex.Model. Represented are
    decays of bosons with spin 0, 1 or 2 to spinless products, in the covariant formalism, with vertices named by the orbital angular
    momentum and the number of the spin configuration (not by a modifier). The tensors of products with spin are those of C94. *)
From Verif.Common Require Import Prelude.
From Coq Require Import Reals.
From Coquelicot Require Import Hierarchy Complex.
From Verif.Vertex Require Import Model.
Local Open Scope nat_scope.

(** A tensor: one number, four, or four times four. *)
Inductive value := Sc (x : C) | Ve (v : vec) | Te (t : ten).
(** An entry of the factory of vertices, by what it takes and gives. *)
Inductive vertex :=
| SS_S (f : vec -> vec -> C -> C -> C) | SS_V (f : vec -> vec -> C -> C -> vec) | SS_T (f : vec -> vec -> C -> C -> ten)
| VS_S (f : vec -> vec -> vec -> C -> C) | VS_V (f : vec -> vec -> vec -> C -> vec) | VS_T (f : vec -> vec -> vec -> C -> ten)
| VV_S (f : vec -> vec -> vec -> vec -> C) | VV_V (f : vec -> vec -> vec -> vec -> vec)
| TS_S (f : vec -> vec -> ten -> C -> C) | TS_V (f : vec -> vec -> ten -> C -> vec) | TS_T (f : vec -> vec -> ten -> C -> ten)
| TV_S (f : vec -> vec -> ten -> vec -> C) | TT_S (f : vec -> vec -> ten -> ten -> C).
(** A call of a vertex. A tensor that has fewer components than are asked for is read past its end. *)
Definition call (f : vertex) (P Q : vec) (V1 V2 : value) : res value :=
  match f, V1, V2 with
  | SS_S f, Sc a, Sc b => Ok (Sc (f P Q a b)) | SS_V f, Sc a, Sc b => Ok (Ve (f P Q a b)) | SS_T f, Sc a, Sc b => Ok (Te (f P Q a b))
  | VS_S f, Ve a, Sc b => Ok (Sc (f P Q a b)) | VS_V f, Ve a, Sc b => Ok (Ve (f P Q a b)) | VS_T f, Ve a, Sc b => Ok (Te (f P Q a b))
  | VV_S f, Ve a, Ve b => Ok (Sc (f P Q a b)) | VV_V f, Ve a, Ve b => Ok (Ve (f P Q a b))
  | TS_S f, Te a, Sc b => Ok (Sc (f P Q a b)) | TS_V f, Te a, Sc b => Ok (Ve (f P Q a b)) | TS_T f, Te a, Sc b => Ok (Te (f P Q a b))
  | TV_S f, Te a, Ve b => Ok (Sc (f P Q a b)) | TT_S f, Te a, Te b => Ok (Sc (f P Q a b))
  | _, _, _ => UB
  end.
(** src/Vertex.cpp:163-299 by name, src/Particle.cpp:511 and 282-292: the spins are twice the spin (names S, V, T for 0, 2, 4), then the
    orbital angular momentum (S, P, D) and the number of the spin configuration (no digit for 0). *)
Definition named (J s1 s2 L conf : nat) : option vertex :=
  match J, s1, s2, L, conf with
  | 0, 0, 0, 0, 0 => Some (SS_S S_SS_S)
  | 0, 2, 2, 0, 0 => Some (VV_S S_VV_S) | 0, 2, 2, 0, 1 => Some (VV_S S_VV_S1)
  | 0, 2, 2, 2, 0 => Some (VV_S S_VV_D) | 0, 2, 2, 1, 0 => Some (VV_S S_VV_P)
  | 0, 2, 0, 1, 0 => Some (VS_S S_VS_P) | 2, 0, 0, 1, 0 => Some (SS_V V_SS_P)
  | 2, 2, 0, 1, 0 => Some (VS_V V_VS_P) | 2, 2, 0, 0, 0 => Some (VS_V V_VS_S) | 2, 2, 0, 2, 0 => Some (VS_V V_VS_D)
  | 2, 2, 2, 1, 0 => Some (VV_V V_VV_P) | 2, 2, 2, 1, 1 => Some (VV_V V_VV_P1) | 2, 2, 2, 1, 2 => Some (VV_V V_VV_P2)
  | 2, 2, 2, 0, 0 => Some (VV_V V_VV_S)
  | 4, 2, 0, 2, 0 => Some (VS_T T_VS_D) | 4, 4, 0, 0, 0 => Some (TS_T T_TS_S) | 4, 2, 0, 1, 0 => Some (VS_T T_VS_P)
  | 4, 0, 0, 2, 0 => Some (SS_T T_SS_D)
  | 0, 4, 2, 1, 0 => Some (TV_S S_TV_P) | 0, 4, 0, 2, 0 => Some (TS_S S_TS_D) | 0, 4, 2, 2, 0 => Some (TV_S S_TV_D)
  | 0, 4, 4, 0, 0 => Some (TT_S S_TT_S) | 2, 4, 0, 1, 0 => Some (TS_V V_TS_P) | 2, 4, 0, 2, 0 => Some (TS_V V_TS_D)
  | _, _, _, _, _ => None
  end.

(** A decay tree: twoSpin() of each particle, the index of each product, the orbital angular momentum and the spin configuration of each
    decay to two particles. *)
Inductive decay :=
| Stable (J : nat) (index : nat)
| Quasi (J : nat) (d : decay)
| Two (J L conf : nat) (a b : decay)
| Three (J : nat) (a b c : decay).
Definition twoSpin (d : decay) : nat := match d with Stable J _ | Quasi J _ | Two J _ _ _ _ | Three J _ _ _ => J end.

Definition plus (a b : vec) : vec := fun i => (a i + b i)%C.
Definition minus (a b : vec) : vec := fun i => (a i - b i)%C.
Definition nil4 : vec := fun _ => RtoC 0.
(** src/Particle.cpp:233-252; an event gives the momentum for each index *)
Fixpoint P (d : decay) (e : nat -> vec) : vec :=
  match d with
  | Stable _ i => e i
  | Quasi _ a => plus nil4 (P a e)
  | Two _ _ _ a b => plus (plus nil4 (P a e)) (P b e)
  | Three _ a b c => plus (plus (plus nil4 (P a e)) (P b e)) (P c e)
  end.
(** src/Particle.cpp:502-528; 535-536 for a product without spin (one with spin is outside of this model, and refused). src/Vertex.cpp:34-45:
    an unknown vertex is FATAL; 47-61: [mL] is spin() converted to unsigned. *)
Fixpoint spinTensor (d : decay) (e : nat -> vec) : res value :=
  match d with
  | Stable J _ => match J with 0 => Ok (Sc (RtoC 1)) | _ => Throw end
  | Quasi _ a => spinTensor a e
  | Two J L conf a b =>
      bind (spinTensor a e) (fun va => bind (spinTensor b e) (fun vb =>
        match named J (twoSpin a) (twoSpin b) L conf with
        | Some f => call f (P d e) (minus (P a e) (P b e)) va vb
        | None => Throw
        end))
  | Three J a b c =>
      bind (spinTensor a e) (fun _ => bind (spinTensor b e) (fun _ => bind (spinTensor c e) (fun _ =>
        Ok (if Nat.eqb (J / 2) 1 then Ve (getSpinFactorNBody1 (P a e) (P b e) (P c e)) else Sc (RtoC 1)))))
  end.

(** src/Particle.cpp:750-762. [f] is a double converted to int, which drops the fraction; [pow(-1, x)] is not a number unless x is whole,
    and the conversion of that to int is undefined. *)
Fixpoint finalStateParity (d : decay) : res Z :=
  match d with
  | Stable _ _ => Ok 1%Z
  | Quasi _ a => finalStateParity a
  | Two J L _ a b =>
      let f := Z.quot (Z.of_nat J - (2 * Z.of_nat L + Z.of_nat (twoSpin a) + Z.of_nat (twoSpin b))) 2 in
      let lpart := if Z.eqb (Z.rem f 2) 0 then 1%Z else (-1)%Z in
      bind (finalStateParity a) (fun x => bind (finalStateParity b) (fun y => Ok (lpart * x * y)%Z))
  | Three J _ _ _ => if Nat.even J then Ok (if Nat.even (J / 2) then 1%Z else (-1)%Z) else UB
  end.

(** A term of a coherent sum: the decay, the coupling (for the present values of the parameters), the product of its line shapes, the orderings of
    its products over which it is symmetrised with their signs, and whether it has the modifiers BgSpin0 and Inco. *)
Record term := Term { tree : decay; coupling : C; propagator : (nat -> vec) -> C; orderings : list (C * (nat -> nat)); bgSpin0 : bool; inco : bool }.
(** src/Particle.cpp:447-451: the first component of the tensor, for a particle without spin. *)
Definition spinFactor (t : term) (e : nat -> vec) : res C :=
  if bgSpin0 t then Ok (RtoC 1)
  else bind (spinTensor (tree t) e) (fun v => Ok match v with Sc x => x | Ve v => v I0 | Te T => T I0 I0 end).
(** src/Particle.cpp:443-483: the momenta are those of the reordered products. *)
Fixpoint total (t : term) (os : list (C * (nat -> nat))) (e : nat -> vec) : res C :=
  match os with
  | [] => Ok (RtoC 0)
  | (s, o) :: r =>
      let e' := fun i => e (o i) in
      bind (spinFactor t e') (fun x => bind (total t r e) (fun y =>
        let ls := (propagator t e' * x)%C in
        Ok (if inco t then (Cconj ls * ls + y)%C else (s * ls + y)%C)))
  end.
(** src/Particle.cpp:485-499; the square root of a number that is real and not negative. The small imaginary part for constant expressions is
    left out. *)
Definition expression (t : term) (e : nat -> vec) : res C :=
  let n := INR (List.length (orderings t)) in
  bind (total t (orderings t) e) (fun x => Ok (if inco t then RtoC (sqrt (Re x / n)) else (x / RtoC (sqrt n))%C)).
(** src/CoherentSum.cpp:191-195, 199: AMP, as a function of the event and of its second argument. *)
Fixpoint AMP (ts : list term) (e : nat -> vec) (x1 : Z) : res C :=
  match ts with
  | [] => Ok (RtoC 0)
  | t :: r =>
      bind (finalStateParity (tree t)) (fun p => bind (expression t e) (fun a => bind (AMP r e x1) (fun y =>
        Ok ((if Z.eqb p 1 then RtoC 1 else RtoC (IZR x1)) * (coupling t * a) + y)%C)))
  end.
(** 200: FCN *)
Definition FCN (normalisation : R) (ts : list term) (e : nat -> vec) (x1 : Z) : res R :=
  bind (AMP ts e x1) (fun a => Ok (Re (Cconj a * a)%C / normalisation)%R).
