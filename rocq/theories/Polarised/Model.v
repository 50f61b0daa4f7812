(** Model of the polarised sum of amplitudes, src/PolarisedSum.cpp. Complex numbers stand for the values of expressions and for
    [complex_t]; one event per block. The caches (Store, C30-C31; reuse of amplitudes, C32) are represented by what they hold.
    Not represented: construction and compilation of the expressions, the option spaceType, debugging output. *)
From Verif.Common Require Import Prelude.
From Coq Require Import Reals.
From Coquelicot Require Import Hierarchy Complex.
Local Open Scope C_scope.

(** ** The states of polarisation *)
(** src/ParticleProperties.cpp:27-38; [twoSpin] is twice the spin. *)
Definition polarisations (twoSpin : nat) (isPhoton : bool) : list Z :=
  if (twoSpin =? 0)%nat then (0%Z :: nil) else
  if isPhoton then [1; -1]%Z else
  if (twoSpin =? 1)%nat then [1; -1]%Z else
  if (twoSpin =? 2)%nat then [1; 0; -1]%Z else
  if (twoSpin =? 4)%nat then [2; 1; 0; -1; -2]%Z else (0%Z :: nil).
(** src/EventType.cpp:71-73 *)
Definition dimOfParticle (twoSpin : nat) (isPhoton : bool) : nat := if isPhoton then 2 else (twoSpin + 1)%nat.
(** src/EventType.cpp:74-76: a particle is given by twice its spin and by whether it is a photon. *)
Definition dim (mother : nat * bool) (products : list (nat * bool)) : nat * nat :=
  (dimOfParticle (fst mother) (snd mother), fold_left (fun d p => (d * dimOfParticle (fst p) (snd p))%nat) products 1%nat).
(** AmpGen/Utilities.h:182-187: the loop over j, from the last position down, on the reversed list; an empty list of
    elements, for which the remainder is undefined, makes [nc] zero and is never reached. *)
Fixpoint digits {A} (relements : list (list A)) (counter : nat) (acc : list A) : res (list A) :=
  match relements with
  | [] => Ok acc
  | e :: r => let t := (counter mod List.length e)%nat in
              bind (of_opt (nth_error e t)) (fun x => digits r ((counter - t) / List.length e)%nat (x :: acc))
  end.
(** AmpGen/Utilities.h:174-191; without overflow of [nc]. *)
Definition number {A} (elements : list (list A)) : nat := fold_left (fun nc s => (nc * List.length s)%nat) elements 1%nat.
Definition all_combinations {A} (elements : list (list A)) : list (res (list A)) :=
  map (fun i => digits (rev elements) i []) (seq 0 (number elements)).
(** src/PolarisedSum.cpp:69-72 *)
Definition polStates (mother : nat * bool) (products : list (nat * bool)) : list (res (list Z)) :=
  all_combinations (map (fun p => polarisations (fst p) (snd p)) (mother :: products)).

(** ** Density matrices *)
Fixpoint csum (n : nat) (f : nat -> C) : C := match n with 0%nat => RtoC 0 | S n' => csum n' f + f n' end.
Definition delta (a b : nat) : C := if (a =? b)%nat then RtoC 1 else RtoC 0.
Local Notation r x := (RtoC x).
(** src/PolarisedSum.cpp:135-160: the entry at [dim*i+j] is (i, j). *)
Definition densityMatrix (dim : nat) (pv : list R) : res (nat -> C) :=
  match dim with
  | 2%nat => match pv with
    | px :: py :: pz :: _ => Ok (fun i => nth i
        [ r (1 + pz); r px + Ci * r py;
          r px - Ci * r py; r (1 - pz) ] (r 0))
    | _ => UB
    end
  | 3%nat => match pv with
    | px :: py :: pz :: Tyy :: Tzz :: Txy :: Txz :: Tyz :: _ => Ok (fun i => nth i
        [ r (1 + 1.5 * pz + sqrt 1.5 * Tzz); r (sqrt 0.375) * (r px + Ci * r py) + r (sqrt 3) * (r Txz + Ci * r Tyz); - r (sqrt 1.5) * (r (Tzz + 2 * Tyy) - r 2 * Ci * r Txy);
          r (sqrt 0.375) * (r px - Ci * r py) + r (sqrt 3) * (r Txz - Ci * r Tyz); r (1 - sqrt 6 * Tzz); r (sqrt 0.375) * (r px + Ci * r py) - r (sqrt 3) * (r Txz + Ci * r Tyz);
          - r (sqrt 1.5) * (r (Tzz + 2 * Tyy) + r 2 * Ci * r Txy); r (sqrt 0.375) * (r px - Ci * r py) - r (sqrt 3) * (r Txz - Ci * r Tyz); r (1 - 1.5 * pz + sqrt 1.5 * Tzz) ] (r 0))
    | _ => UB
    end
  | d => Ok (fun i => delta (i / d) (i mod d))
  end.
(** src/DiracMatrices.cpp:21-24 *)
Definition Sigma (k : nat) (a b : nat) : C :=
  match k, a, b with
  | 0%nat, 0%nat, 1%nat => r 1 | 0%nat, 1%nat, 0%nat => r 1
  | 1%nat, 0%nat, 1%nat => - Ci | 1%nat, 1%nat, 0%nat => Ci
  | 2%nat, 0%nat, 0%nat => r 1 | 2%nat, 1%nat, 1%nat => - r 1
  | _, _, _ => r 0
  end.
(** src/PolarisedSum.cpp:385-407; reading beyond the parameters is undefined. *)
Definition rho (it : nat) (p : list R) : res (nat -> nat -> C) :=
  match it with
  | 2%nat => match p with
    | px :: py :: pz :: _ => Ok (fun a b => delta a b + Sigma 0 a b * r px + Sigma 1 a b * r py + Sigma 2 a b * r pz)
    | _ => UB
    end
  | 3%nat => match p with
    | px :: py :: pz :: Tyy :: Tzz :: Txy :: Txz :: Tyz :: _ => Ok (fun a b =>
        match a, b with
        | 0%nat, 0%nat => r (1 + 1.5 * pz + sqrt 1.5 * Tzz)
        | 1%nat, 0%nat => r (sqrt 0.375) * (r px + Ci * r py) + r (sqrt 3) * (r Txz + Ci * r Tyz)
        | 2%nat, 0%nat => - r (sqrt 1.5) * (r (Tzz + 2 * Tyy) - r 2 * Ci * r Txy)
        | 0%nat, 1%nat => r (sqrt 0.375) * (r px - Ci * r py) + r (sqrt 3) * (r Txz - Ci * r Tyz)
        | 1%nat, 1%nat => r (1 - sqrt 6 * Tzz)
        | 2%nat, 1%nat => r (sqrt 0.375) * (r px + Ci * r py) - r (sqrt 3) * (r Txz + Ci * r Tyz)
        | 0%nat, 2%nat => - r (sqrt 1.5) * (r (Tzz + 2 * Tyy) + r 2 * Ci * r Txy)
        | 1%nat, 2%nat => r (sqrt 0.375) * (r px - Ci * r py) - r (sqrt 3) * (r Txz - Ci * r Tyz)
        | 2%nat, 2%nat => r (1 - 1.5 * pz + sqrt 1.5 * Tzz)
        | _, _ => r 0
        end)
    | _ => UB
    end
  | _ => Ok delta
  end.

(** ** The density *)
(** src/PolarisedSum.cpp:236-253: the amplitudes of the elements, [s1 * s2] each, one after the other in the cache. *)
Definition transitionMatrix (s2 n : nat) (coupling : nat -> C) (amp : nat -> nat -> C) (a b : nat) : C :=
  csum n (fun k => coupling k * amp k (a * s2 + b)%nat).
(** src/PolarisedSum.cpp:408-419. [T] is s1 x s2. The tensor [rhof] has four elements and is read at b * s2 + c: beyond the
    fourth this is undefined. *)
Definition rhof (polfrac : R) (s2 b c : nat) : res C := of_opt (nth_error [r polfrac; r 0; r 0; r (1 - polfrac)] (b * s2 + c)).
Fixpoint rsum (n : nat) (f : nat -> res C) : res C := match n with 0%nat => Ok (r 0) | S n' => bind (rsum n' f) (fun x => bind (f n') (fun y => Ok (x + y))) end.
Definition final (s2 : nat) (pf : list R) (T : nat -> nat -> C) (a d : nat) : res C :=
  match pf with
  | [] => Ok (csum s2 (fun b => T a b * Cconj (T d b)))
  | polfrac :: _ => rsum s2 (fun b => rsum s2 (fun c => bind (rhof polfrac s2 b c) (fun f => Ok (T a b * f * Cconj (T d c)))))
  end.
(** src/PolarisedSum.cpp:381-427 *)
Definition probExpression (s1 s2 : nat) (p pf : list R) (T : nat -> nat -> C) : res R :=
  bind (rho s1 p) (fun m => bind (rsum s1 (fun a => rsum s1 (fun b => bind (final s2 pf T b a) (fun t => Ok (m a b * t))))) (fun z => Ok (Re z))).

(** ** The normalisation *)
(** The integration sample: the weights and, for every event, the values of the elements. src/Integrator.cpp:41-55: the
    integral of the product of field [x] of element i and field [y] of element j. *)
Record sample := Sample { n_events : nat; weight : nat -> R; amps : nat -> nat -> nat -> C (* event, element, field *) }.
Definition total_weight (s : sample) : R := Re (csum (n_events s) (fun e => r (weight s e))).
Definition integral (s : sample) (i x j y : nat) : C :=
  csum (n_events s) (fun e => r (weight s e) * (amps s e i x * Cconj (amps s e j y))) / r (total_weight s).
(** src/PolarisedSum.cpp:265-297: the coefficient of the entry x of m_norms and the fields it is the integral of; the fields
    of element i start at m_integIndex[i]. *)
Definition fields (s1 s2 x : nat) : nat * nat * nat * nat :=
  let f := (x mod s2)%nat in let psi := ((x - f) / s2)%nat in let m2 := (psi mod s1)%nat in let m1 := ((psi - m2) / s1)%nat in (f, psi, m1 * s2 + f, m2 * s2 + f)%nat.
Definition coefficient (m_rho : nat -> C) (pf : list R) (f psi : nat) : C :=
  match pf with
  | crsqN :: _ => if (psi =? 0)%nat then (if (f =? 0)%nat then m_rho psi * r crsqN else m_rho psi * r (1 - crsqN)) else r 0
  | [] => m_rho psi
  end.
Definition norm_ij (s1 s2 : nat) (m_rho : nat -> C) (pf : list R) (norms : nat -> nat -> nat -> C) (i j : nat) : C :=
  csum (s1 * s1 * s2) (fun x => let '(f, psi, _, _) := fields s1 s2 x in coefficient m_rho pf f psi * norms x i j).
(** src/PolarisedSum.cpp:299-308: the integrals that are queued: those of the elements that changed, and of the entries that
    are used. The queue computes each of them (C34). *)
Definition queued (pf : list R) (psi : nat) : bool := match pf with [] => true | _ => (psi =? 0)%nat end.
Definition update (s1 s2 n : nat) (pf : list R) (workToDo : nat -> bool) (s : sample) (norms : nat -> nat -> nat -> C) : nat -> nat -> nat -> C :=
  fun x i j => let '(f, psi, y, z) := fields s1 s2 x in
    if (queued pf psi && (x <? s1 * s1 * s2) && (i <=? j) && (j <? n) && (workToDo i || workToDo j))%nat%bool then integral s i y j z else norms x i j.
(** src/PolarisedSum.cpp:309-316 *)
Definition m_norm (s1 s2 n : nat) (m_rho : nat -> C) (pf : list R) (coupling : nat -> C) (norms : nat -> nat -> nat -> C) : R :=
  Re (csum n (fun i => csum n (fun j => coupling i * Cconj (coupling j) *
        (if (j <? i)%nat then Cconj (norm_ij s1 s2 m_rho pf norms j i) else norm_ij s1 s2 m_rho pf norms i j)))).
(** src/PolarisedSum.cpp:174-176, 482-493, 299-317 *)
Definition prepare (s1 s2 n : nat) (p pf : list R) (coupling : nat -> C) (workToDo : nat -> bool) (s : sample) (norms : nat -> nat -> nat -> C) : res ((nat -> nat -> nat -> C) * R) :=
  bind (densityMatrix s1 p) (fun m_rho =>
    let norms' := update s1 s2 n pf workToDo s norms in Ok (norms', m_norm s1 s2 n m_rho pf coupling norms')).
(** src/PolarisedSum.cpp:549-563: the component of the pair of elements i <= j at event e. *)
Definition component (s1 s2 : nat) (m_rho : nat -> C) (coupling : nat -> C) (amp : nat -> nat -> C) (i j : nat) : R :=
  Rmult (if (i =? j)%nat then 1 else 2) (Re (csum (s1 * s1 * s2) (fun x => let '(f, psi, y, z) := fields s1 s2 x in
     m_rho psi * coupling i * amp i y * Cconj (coupling j * amp j z)))).
