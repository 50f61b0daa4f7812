(** Symmetrisation over identical particles: src/Particle.cpp:99-111, 325-344, 386-410, 425-500, 849-855. *)
From Coq Require Import Reals.
From Coquelicot Require Import Complex.
From Verif.Common Require Export Prelude.
From Verif.Utilities Require Model.
Local Open Scope nat_scope.

(** A stable particle of a decay tree: name(), originalIndex(), index(), polState(). A decay is here the list of its stable particles, as
    getFinalStateParticles( false ) gives them (325-338); the rest of the tree is in the functions [propagator] and [spin] below. *)
Record leaf := Leaf { lname : str; orig : nat; idx : nat; pol : Z }.
(** AmpGen/Particle.h:303-305 *)
Definition new_leaf (x : str) : leaf := Leaf x 999 999 0.
(** src/Particle.cpp:733-737 *)
Definition set_index (i : nat) (setOri : bool) (l : leaf) : leaf := Leaf (lname l) (if setOri then i else orig l) i (pol l).

(** src/Particle.cpp:104-110: the first final state that is not used and has the name. *)
Fixpoint find_slot (x : str) (i : nat) (slots : list (str * bool)) : option (nat * list (str * bool)) :=
  match slots with
  | [] => None
  | (y, used) :: r =>
      if used || negb (str_eqb x y) then match find_slot x (S i) r with Some (k, r') => Some (k, (y, used) :: r') | None => None end
      else Some (i, (y, true) :: r)
  end.
(** src/Particle.cpp:103-111 *)
Fixpoint assign (names : list str) (slots : list (str * bool)) : list leaf :=
  match names with
  | [] => []
  | x :: r => match find_slot x 0 slots with
      | Some (i, slots') => set_index i true (new_leaf x) :: assign r slots'
      | None => new_leaf x :: assign r slots
      end
  end.
(** src/Particle.cpp:100-111: the stable particles of a decay, named [names], given the final states [types] of an event type. *)
Definition construct (names types : list str) : list leaf := assign names (map (fun y => (y, false)) types).

(** src/Particle.cpp:340-342: std::sort by originalIndex(). For different indices every sort gives this list; with equal ones the order of
    std::sort is not determined. *)
Fixpoint insert (x : leaf) (l : list leaf) : list leaf := match l with [] => [x] | y :: r => if orig y <? orig x then y :: insert x r else x :: y :: r end.
Definition getFinalStateParticles (ls : list leaf) : list leaf := fold_right insert [] ls.
(** The place of a particle in that list. *)
Definition rank (ls : list leaf) (l : leaf) : nat := List.length (filter (fun l' => orig l' <? orig l) ls).

(** std::next_permutation from the sorted list to the end: all permutations, each once, in lexicographic order. *)
Fixpoint perms (n : nat) (l : list nat) : list (list nat) :=
  match n with
  | 0 => [[]]
  | S m => flat_map (fun x => map (cons x) (perms m (remove Nat.eq_dec x l))) l
  end.
(** src/Particle.cpp:386-402 *)
Definition same_as (zero_perm : list str) (indices : list nat) : bool :=
  forallb (fun i => str_eqb (nth i zero_perm []) (nth (nth i indices 0) zero_perm [])) (seq 0 (List.length indices)).
Definition identicalDaughterOrderings (ls : list leaf) : list (list nat) :=
  let zero_perm := map lname (getFinalStateParticles ls) in
  let n := List.length zero_perm in
  filter (same_as zero_perm) (perms n (seq 0 n)).

(** src/Particle.cpp:404-410 *)
Definition setOrdering (ordering : list nat) (ls : list leaf) : list leaf :=
  map (fun l => match nth_error ordering (rank ls l) with Some i => set_index i false l | None => l end) ls.
(** src/Particle.cpp:849-855, for a state of which every entry is allowed (833-847); the first entry, for the decaying particle, is left out.
    Reading past the end of the state is undefined. *)
Definition setPolarisationState (state : list Z) (ls : list leaf) : res (list leaf) :=
  if Nat.leb (List.length ls) (List.length state) then Ok (map (fun l => Leaf (lname l) (orig l) (idx l) (nth (rank ls l) state 0%Z)) ls) else UB.

Section Expression.
  (** Momenta; isFermion() of the particle with a name; the product of line shapes for the momenta of the stable particles, in the order of the
      tree; the spin factor for the momenta and polarisations. *)
  Variables (M : Type) (fermion : str -> bool) (propagator : list M -> C) (spin : list (M * Z) -> C).
  (** Modifiers NoSym, Inco, BgSpin0; whether the total is a Constant. *)
  Variables (noSym inco bgSpin0 constant : bool).

  (** The value for an event of what is built while the indices are as in [ls]. *)
  Definition ls_value (ls : list leaf) (x : nat -> M) : C :=
    (propagator (map (fun l => x (idx l)) ls) * (if bgSpin0 then RtoC 1 else spin (map (fun l => (x (idx l), pol l)) ls)))%C.
  Definition parities (ls : list leaf) : list Z := map (fun p => if fermion (lname p) then (-1)%Z else 1%Z) (getFinalStateParticles ls).
  (** src/Particle.cpp:443-483; the line shapes for an ordering are built before (439-442), for the same indices. *)
  Fixpoint totals (orderings : list (list nat)) (x : nat -> M) (ls : list leaf) (total : C) : res (C * list leaf) :=
    match orderings with
    | [] => Ok (total, ls)
    | o :: r =>
        bind (Utilities.Model.minSwaps o (parities ls)) (fun '(_, e) =>
        let ls1 := setOrdering o ls in
        let v := ls_value ls1 x in
        let total1 := if inco then (total + Cconj v * v)%C else (total + RtoC (IZR e) * v)%C in
        if noSym then Ok (total1, ls1) else totals r x ls1 total1)
    end.
  (** src/Particle.cpp:425-500: the value of the expression for an event, and the particles afterwards. fcn::sqrt of the sum of squares, a
      real number. *)
  Definition getExpression (x : nat -> M) (ls : list leaf) : res (C * list leaf) :=
    let orderings := identicalDaughterOrderings ls in
    let nPermutations := if noSym then 1%R else INR (List.length orderings) in
    bind (totals orderings x ls (RtoC 0)) (fun '(total, ls1) =>
    let v := if inco then RtoC (sqrt (Re total / nPermutations)%R) else ((if constant then total + Ci * RtoC (1 / 100000)%R else total) / RtoC (sqrt nPermutations))%C in
    Ok (v, ls1)).
End Expression.
