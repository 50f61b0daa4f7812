(** Transcription of AmpGen/DecayChainStack.h and src/TreePhaseSpace.cpp with real numbers for double. The option
    DecayChainStack::AggressiveOptimisation (lines 182-194) is off, its default. *)
From Coq Require Import Reals List.
From Verif.Common Require Import Prelude Writes.
From Verif.Phsp Require Import Model.
Import ListNotations.
Local Open Scope R_scope.

(** What the constructor reads of a decaying Particle: isQuasiStable, lineshapeContains({"FormFactor", "None", "TD"}), mass, width; of a stable
    one its index and mass. *)
Record attrs := Attrs { quasi : bool; flat : bool; amass : R; awidth : R }.
Inductive particle := Stable (k : nat) (m : R) | Decay (a : attrs) (ds : list particle).

Definition pmass (p : particle) : R := match p with Stable _ m => m | Decay a _ => amass a end.
(** Particle::isStable, src/Particle.cpp:778: no daughters. *)
Definition stable (p : particle) : bool := match p with Stable _ _ => true | Decay _ [] => true | _ => false end.
Definition pindex (p : particle) : nat := match p with Stable k _ => k | Decay _ _ => 999 end.

(** Sum of the masses of the daughters of quasiStableTree() (src/Particle.cpp:346-359; AmpGen/DecayChainStack.h:166-167). *)
Fixpoint qsum (p : particle) : R :=
  match p with
  | Stable _ _ => 0
  | Decay _ ds =>
      fold_right Rplus 0 (map (fun d =>
        match d with
        | Stable _ m => m
        | Decay a [] => amass a
        | Decay a _ => if quasi a && negb (Nat.eqb (List.length ds) 1) then amass a else qsum d
        end) ds)
  end.

(** The final state particles: index and mass. *)
Fixpoint finals (p : particle) : list (nat * R) :=
  match p with
  | Stable k m => [(k, m)]
  | Decay _ ds => flat_map finals ds
  end.

(** AmpGen/DecayChainStack.h:31-40 *)
Inductive ntype := BW | Flat | QuasiStable.
Record node := Node { ty : ntype; nl : nat; nr : nat; lo : R; hi : R; plo : R; phi : R; bwMass : R; bwWidth : R; lfs : list nat; rfs : list nat }.

(** Node::set, AmpGen/DecayChainStack.h:99-113, for a particle that decays, on a node of type Flat with its range. Line 107 compares instead of
    assigning, but the type is Flat already. *)
Definition node_set (a : attrs) (l r : nat) (rlo rhi : R) : node :=
  let m := amass a in let w := awidth a in
  if quasi a then Node QuasiStable l r rlo rhi 0 0 m w [] []
  else if flat a then Node Flat l r rlo rhi 0 0 m w [] []
  else Node BW l r rlo rhi (atan ((rlo - m * m) / (m * w))) (atan ((rhi - m * m) / (m * w))) m w [] [].

Section Build.
  (** Two daughters [a], [b] given to the constructor of src/Particle.cpp:36-45 are exchanged by sortDaughters; attributes of a particle made anew
      from its name (AmpGen/DecayChainStack.h:162), and those of NonResS0. *)
  Variable swaps : particle -> particle -> bool.
  Variable renamed : attrs -> attrs.
  Variable nonres : attrs.
  Variable N : nat.

  (** AmpGen/DecayChainStack.h:157-165: the daughters, two of them, and the attributes. *)
  Definition binary (a : attrs) (ds : list particle) : res (attrs * particle * particle) :=
    match ds with
    | [] => UB
    | [x; y] => Ok (a, x, y)
    | x :: rest => let y := Decay nonres rest in
                   if stable y then UB
                   else Ok (if swaps x y then (renamed a, y, x) else (renamed a, x, y))
    end.

  (** AmpGen/DecayChainStack.h:151-178: the stack of particles to do. [Some] marks the nodes written. Node 0 and quasi-stable particles get the
      range of line 175, others that of line 176; [spare] is minMass. *)
  Fixpoint layout (fuel : nat) (spare : R) (todo : list (particle * nat)) (counter : nat) (nodes : list (option node)) : res (list (option node)) :=
    match todo with
    | [] => Ok nodes
    | (cur, index) :: todo' =>
        match fuel with
        | O => OutOfFuel
        | S fuel' =>
            match cur with
            | Stable _ _ => UB
            | Decay a0 ds =>
                bind (binary a0 ds) (fun '(a, x, y) =>
                let min_mass := qsum (Decay a [x; y]) in
                let G := if quasi a then 0 else amass a * awidth a * 10 in
                let s0 := amass a * amass a in
                let '(l, c1, t1) := if stable x then (pindex x, counter, todo') else ((S counter + N)%nat, S counter, (x, S counter) :: todo') in
                let '(r, c2, t2) := if stable y then (pindex y, c1, t1) else ((S c1 + N)%nat, S c1, (y, S c1) :: t1) in
                let n := if Nat.eqb index 0 || quasi a then node_set a l r (s0 - G) (s0 + G)
                         else node_set a l r (min_mass * min_mass) ((spare + min_mass) * (spare + min_mass)) in
                match set_at index (Some n) nodes with
                | Some nodes' => layout fuel' spare t2 c2 nodes'
                | None => UB
                end)
            end
        end
    end.

  (** AmpGen/DecayChainStack.h:260-263 *)
  Definition rho_2 (s0 s1 s2 : R) : R := 1 - 2 * (s1 + s2) / s0 + (s1 - s2) * (s1 - s2) / (s0 * s0).

  Variable m0 : nat -> R.

  (** AmpGen/DecayChainStack.h:195-210, from the last node to the first: [later] are the nodes behind, the first of them with index i+1. *)
  Definition behind (i : nat) (later : list node) (j : nat) : option node := if Nat.ltb (N + i) j then nth_error later (j - N - S i) else None.
  Definition leaves_of (i : nat) (later : list node) (j : nat) : res (list nat) :=
    if Nat.ltb j N then Ok [j] else match behind i later j with Some n => Ok (lfs n ++ rfs n) | None => UB end.
  Definition smin (i : nat) (later : list node) (j : nat) : res R :=
    if Nat.ltb j N then Ok (m0 j * m0 j) else match behind i later j with Some n => Ok (lo n) | None => UB end.
  Definition with_leaves (n : node) (a b : list nat) : node :=
    Node (ty n) (nl n) (nr n) (lo n) (hi n) (plo n) (phi n) (bwMass n) (bwWidth n) a b.
  Fixpoint finish (i : nat) (nodes : list (option node)) : res (list node * R) :=
    match nodes with
    | [] => Ok ([], 1)
    | None :: _ => UB
    | Some n :: rest =>
        bind (finish (S i) rest) (fun '(later, rho) =>
        bind (smin i later (nl n)) (fun s1 => bind (smin i later (nr n)) (fun s2 =>
        bind (leaves_of i later (nl n)) (fun a => bind (leaves_of i later (nr n)) (fun b =>
          Ok (with_leaves n a b :: later, rho * rho_2 (hi n) s1 s2))))))
    end.
End Build.

(** The constructor, AmpGen/DecayChainStack.h:145-213: the nodes and m_rhoMax. [Throw] is the root of a negative number. *)
Definition construct (swaps : particle -> particle -> bool) (renamed : attrs -> attrs) (nonres : attrs) (fuel : nat) (p : particle) : res (list node * R) :=
  let fs := finals p in
  let N := List.length fs in
  let m0 k := match find (fun x => Nat.eqb (fst x) k) fs with Some (_, m) => m | None => 0 end in
  let spare := fold_left (fun acc x => acc - snd x) fs (pmass p) in
  bind (layout swaps renamed nonres N fuel spare [(p, O)] O (repeat None (N - 1))) (fun nodes =>
  bind (finish N m0 0 nodes) (fun '(ns, rho) =>
  match rsqrt rho with Some w => Ok (ns, w) | None => Throw end)).

(** *** Sampling *)
(** Node::operator() of a generator, AmpGen/DecayChainStack.h:80-98. [None] is a tangent or quotient that does not exist. *)
Definition sample (n : node) (u : R) : option R :=
  match ty n with
  | BW =>
      let d := (phi n - plo n) * u in
      if Req_EM_T (cos d) 0 then None
      else
        let y := tan d in
        let mG := bwMass n * bwWidth n in
        let s0 := bwMass n * bwMass n in
        let q := mG - y * (lo n - s0) in
        if Req_EM_T q 0 then None else Some (s0 + mG * (mG * y + lo n - s0) / q)
  | Flat => Some ((hi n - lo n) * u + lo n)
  | QuasiStable => Some (lo n)
  end.

(** Node::operator()(s), AmpGen/DecayChainStack.h:56-68 *)
Definition density (n : node) (s : R) : R :=
  match ty n with
  | BW => (bwMass n * bwWidth n)
          / ((phi n - plo n) * ((s - bwMass n * bwMass n) * (s - bwMass n * bwMass n) + bwMass n * bwMass n * bwWidth n * bwWidth n))
  | Flat => 1 / (hi n - lo n)
  | QuasiStable => 1
  end.

Notation state := (nat -> option R).
Definition put {A} (f : nat -> A) (k : nat) (x : A) : nat -> A := fun j => if Nat.eqb j k then x else f j.

Section Event.
  Variable N : nat.
  Variable m0 : nat -> R.
  Variable u : nat -> R.

  (** proposal, AmpGen/DecayChainStack.h:282-298: from the last node to the first; the state, the product of line 294 and the number of random
      numbers used. The state holds the final state particles and then the nodes; [None] is not written yet. *)
  Fixpoint propose (i : nat) (nodes : list node) : res (state * R * nat) :=
    match nodes with
    | [] => Ok ((fun j => if Nat.ltb j N then Some (m0 j * m0 j) else None), 1, O)
    | n :: rest =>
        bind (propose (S i) rest) (fun '(st, w, k) =>
        match sample n (u k) with
        | None => Throw
        | Some s =>
            let k' := match ty n with QuasiStable => k | _ => S k end in
            let st' := put st (i + N)%nat (Some s) in
            match st' (nl n), st' (nr n) with
            | Some sl, Some sr =>
                let v := rho_2 s sl sr * (if rlt (sl + sr + 2 * sqrt (sl * sr)) s then 1 else 0) in
                Ok (st', if rlt v 0 then 0 else v * w, k')
            | _, _ => UB
            end
        end)
    end.
  Definition proposal (nodes : list node) : res (state * R * nat) :=
    bind (propose 0 nodes) (fun '(st, w, k) => Ok (st, sqrt w, k)).

  (** An event: the momentum of each final state particle. *)
  Notation event := (nat -> quad).

  (** boost, AmpGen/DecayChainStack.h:264-271 *)
  Definition boost (p : quad) (nx ny nz g vg : R) : quad :=
    let '(x, y, z, E) := p in
    let nv := x * nx + y * ny + z * nz in
    (x + ((g - 1) * nv + vg * E) * nx, y + ((g - 1) * nv + vg * E) * ny, z + ((g - 1) * nv + vg * E) * nz, g * E + vg * nv).

  Fixpoint boosts (ev : event) (l : list nat) (nx ny nz g vg : R) : event :=
    match l with [] => ev | k :: l' => boosts (put ev k (boost (ev k) nx ny nz g vg)) l' nx ny nz g vg end.

  (** One side of AmpGen/DecayChainStack.h:335-339: a single particle is set, several are boosted. *)
  Definition side (ev : event) (l : list nat) (nx ny nz p s : R) : event :=
    match l with
    | [k] => put ev k (p * nx, p * ny, p * nz, sqrt (s + p * p))
    | _ => boosts ev l nx ny nz (sqrt (1 + p * p / s)) (p / sqrt s)
    end.

  (** fill_from_state, AmpGen/DecayChainStack.h:317-341, from the last node to the first, with the number of random numbers used. *)
  Fixpoint fills (st : state) (i : nat) (nodes : list node) (k0 : nat) : res (event * nat) :=
    match nodes with
    | [] => Ok ((fun j => (0, 0, 0, m0 j)), k0)
    | n :: rest =>
        bind (fills st (S i) rest k0) (fun '(ev, k) =>
        match st (nl n), st (nr n), st (i + N)%nat with
        | Some sl, Some sr, Some s =>
            let nz := 2 * u k - 1 in
            let a := 2 * PI * u (S k) in
            let p := 5 / 10 * sqrt (s * rho_2 s sl sr) in
            let sZ := sqrt (1 - nz * nz) in
            let nx := sZ * cos a in
            let ny := sZ * sin a in
            let ev1 := side ev (lfs n) nx ny nz p sl in
            Ok (side ev1 (rfs n) (- nx) (- ny) (- nz) p sr, S (S k))
        | _, _, _ => UB
        end)
    end.
  Definition fill_from_state (st : state) (nodes : list node) (k0 : nat) : res (event * nat) := fills st 0 nodes k0.

  (** s, AmpGen/DecayChainStack.h:237-258 *)
  Definition add4 (a b : quad) : quad :=
    let '(x, y, z, e) := a in let '(x', y', z', e') := b in (x + x', y + y', z + z', e + e').
  Definition inv_mass (ev : event) (l r : list nat) : R :=
    let '(x, y, z, e) := fold_left (fun P k => add4 P (ev k)) r (fold_left (fun P k => add4 P (ev k)) l (0, 0, 0, 0)) in
    e * e - x * x - y * y - z * z.

  (** genPdf, AmpGen/DecayChainStack.h:226-235 *)
  Definition gen_pdf (ev : event) (nodes : list node) : R :=
    fold_left (fun g n => g * density n (inv_mass ev (lfs n) (rfs n))) nodes 1.
End Event.

(** *** TreePhaseSpace *)
(** initialise_weights, src/TreePhaseSpace.cpp:55-60: std::max_element with the comparison of line 58. *)
Definition max_element {A} (lt : A -> A -> bool) (l : list A) : res A :=
  match l with [] => UB | x :: l' => Ok (fold_left (fun best y => if lt best y then y else best) l' x) end.
Definition ceiling (max_weights : list R) : res R := max_element (fun a b => rlt b a) max_weights.

(** The condition of the loop of fill_event, src/TreePhaseSpace.cpp:75-83, to stop with a proposal of weight [w]; [u] is its uniform number. *)
Definition accepts (wmax w u : R) : bool := negb (rlt w (u * wmax)).

(** m_rand after the constructors, src/TreePhaseSpace.cpp:16-29 and 31-53; [None] is the null pointer and [global] gRandom. *)
Definition rand_of_chain {G} (global : G) (rndm : option G) : option G :=
  let m_rand := match rndm with None => Some global | Some r => Some r end in m_rand.
Definition rand_of_chains {G} (global : G) (rndm : option G) : option G :=
  let m_rand := match rndm with None => Some global | Some r => Some r end in
  let set_random (_ : option G) := rndm in set_random m_rand.
(** Drawing through the pointer. *)
Definition draw {G} (m_rand : option G) : res G := match m_rand with Some g => Ok g | None => UB end.
