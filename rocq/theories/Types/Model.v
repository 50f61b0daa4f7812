(** Event types: src/EventType.cpp:27-66, 110-165, 167-206, 214, 283-307, and nCr of AmpGen/Utilities.h:46-57. The numbers of spin states
    (71-76) are in Verif.Polarised, the format of events and the orderings in Verif.Events. Masses are real numbers. *)
From Verif.Common Require Import Prelude.
From Coq Require Import Reals.
From Verif.Events Require Model.
Local Open Scope nat_scope.

(** ** Combinations *)
(** std::next_permutation, going through the list from its end: [l] without a next permutation has no ascent, so the element exchanged with
    [x] is the last [true]. *)
Fixpoint lower_last (l : list bool) : option (list bool) :=
  match l with
  | [] => None
  | y :: r => match lower_last r with Some r' => Some (y :: r') | None => if y then Some (false :: r) else None end
  end.
Fixpoint next_permutation (l : list bool) : option (list bool) :=
  match l with
  | [] => None
  | x :: r =>
      match next_permutation r with
      | Some r' => Some (x :: r')
      | None => if x then None else match lower_last r with Some r' => Some (true :: rev r') | None => None end
      end
  end.
(** AmpGen/Utilities.h:53 *)
Fixpoint unmasked (i : nat) (mask : list bool) : list nat :=
  match mask with [] => [] | b :: r => if b then unmasked (S i) r else i :: unmasked (S i) r end.
(** AmpGen/Utilities.h:51-55; the number of rounds is bounded by [fuel]. *)
Fixpoint nCr_loop (fuel : nat) (mask : list bool) : res (list (list nat)) :=
  match fuel with
  | 0 => OutOfFuel
  | S m => match next_permutation mask with
      | Some mask' => bind (nCr_loop m mask') (fun r => Ok (unmasked 0 mask :: r))
      | None => Ok [unmasked 0 mask]
      end
  end.
(** AmpGen/Utilities.h:46-57: with r > n the iterator given to fill is outside the vector. *)
Definition nCr (n r : nat) : res (list (list nat)) :=
  if r <=? n then nCr_loop (2 ^ n) (repeat false r ++ repeat true (n - r)) else UB.

(** ** Event types *)
(** ParticlePropertiesList::get: mass and name of the antiparticle. *)
Record particle := Particle { pmass : R; anti : str }.
(** src/EventType.cpp:27-66. A mother that is not known leaves an event type without final states; its mass is not set. *)
Record etype := EType { mother : str; motherMass : option R; names : list str; masses : list R; timeDependent : bool; extensions : list str }.
Section Types.
  Variable get : str -> option particle.
  (** src/EventType.cpp:49-53: begin() and rbegin() of an empty name may not be dereferenced. *)
  Definition strip (x : str) : res str :=
    match x with
    | [] => UB
    | c :: r => if Ascii.eqb c "{" && Ascii.eqb (last x c) "}" then Ok (firstn (List.length x - 2) r) else Ok x
    end.
  (** src/EventType.cpp:47-61 *)
  Fixpoint add_particles (l : list str) : res (list (str * R)) :=
    match l with
    | [] => Ok []
    | x :: r => bind (strip x) (fun y => match get y with None => Throw | Some p => bind (add_particles r) (fun t => Ok ((y, pmass p) :: t)) end)
    end.
  Definition construct (particleNames : list str) (isTD : bool) : res etype :=
    match particleNames with
    | [] => UB
    | m :: ds =>
        if List.length particleNames <? 3 then Throw
        else match get m with
             | None => Ok (EType m None [] [] isTD [])
             | Some p => bind (add_particles ds) (fun t => Ok (EType m (Some (pmass p)) (map fst t) (map snd t) isTD []))
             end
    end.
  Definition size (t : etype) : nat := List.length (names t).
  (** src/EventType.cpp:106-109 *)
  Definition extendEventType (branch : str) (t : etype) : etype := EType (mother t) (motherMass t) (names t) (masses t) (timeDependent t) (extensions t ++ [branch]).
  (** src/EventType.cpp:158-165 *)
  Definition anti_name (x : str) : res str := match get x with Some p => Ok (anti p) | None => UB end.
  Fixpoint each (f : str -> res str) (l : list str) : res (list str) :=
    match l with [] => Ok [] | x :: r => bind (f x) (fun y => bind (each f r) (fun t => Ok (y :: t))) end.
  Definition conj (headOnly dontConjHead : bool) (t : etype) : res etype :=
    bind (if dontConjHead then Ok (mother t) else anti_name (mother t)) (fun m =>
    bind (each (fun x => if headOnly then Ok x else anti_name x) (names t)) (fun ds => construct (m :: ds) (timeDependent t))).
End Types.
(** src/EventType.cpp:290 *)
Definition eventSize (t : etype) : nat := 4 * size t + (if timeDependent t then 1 else 0).
(** src/EventType.cpp:199-206 *)
Fixpoint same_names (a b : list str) : bool := match a, b with x :: a', y :: b' => str_eqb x y && same_names a' b' | _, _ => true end.
Definition eq_type (a b : etype) : bool := str_eqb (mother a) (mother b) && (size a =? size b) && same_names (names a) (names b).
(** src/EventType.cpp:121-135 *)
Definition count (t : etype) (index : nat) : nat * nat :=
  match nth_error (names t) index with
  | None => (0, 0)
  | Some x => fold_left (fun rt j => if match nth_error (names t) j with Some y => str_eqb y x | None => false end
                                     then (if j <? index then S (fst rt) else fst rt, S (snd rt)) else rt) (seq 0 (size t)) (0, 0)
  end.
(** src/EventType.cpp:283-286 *)
Definition has (t : etype) (x : str) : bool := existsb (fun y => str_eqb y x) (names t).

Local Open Scope R_scope.
(** src/EventType.cpp:110-120 *)
Definition mass (t : etype) (i : nat) : res R := of_opt (nth_error (masses t) i).
Fixpoint add_masses (t : etype) (l : list nat) (acc : R) : res R := match l with [] => Ok acc | i :: r => bind (mass t i) (fun m => add_masses t r (acc + m)) end.
Fixpoint take_masses (t : etype) (indices l : list nat) (acc : R) : res R :=
  match l with [] => Ok acc | i :: r => if existsb (Nat.eqb i) indices then take_masses t indices r acc else bind (mass t i) (fun m => take_masses t indices r (acc - m)) end.
Definition minmax (t : etype) (indices : list nat) : res (R * R) :=
  bind (add_masses t indices 0) (fun lo => bind (of_opt (motherMass t)) (fun M => bind (take_masses t indices (seq 0 (size t)) M) (fun hi => Ok (lo, hi)))).
(** A projection: the particles of which it is the invariant mass, whether its root is taken, name, bins and range. *)
Record projection := Projection { particles : list nat; root : bool; pname : str; nBins : nat; low : R; high : R }.
(** src/EventType.cpp:179-197 for "mass2" and "mass" (with another observable a projection without function is returned). *)
Definition make_projection (t : etype) (nb : nat) (indices : list nat) (mass2 : bool) : res projection :=
  bind (minmax t indices) (fun mm => Ok (
    if mass2 then Projection indices false (S_ "s" ++ List.concat (map Events.Model.to_string indices)) nb (fst mm * fst mm - 5 / 100) (snd mm * snd mm + 5 / 100)
    else Projection indices true (S_ "m" ++ List.concat (map Events.Model.to_string indices)) nb (if Rlt_dec (5 / 100) (fst mm) then fst mm - 5 / 100 else 0) (snd mm + 5 / 100))).
(** src/EventType.cpp:186, 191 *)
Definition project (p : projection) (e : list R) : res R :=
  bind (Events.Model.s_all R 0 Rplus Rminus Rmult e (particles p)) (fun s => Ok (if root p then sqrt s else s)).
Fixpoint each_projection (t : etype) (nb : nat) (mass2 : bool) (l : list (list nat)) : res (list projection) :=
  match l with [] => Ok [] | i :: r => bind (make_projection t nb i mass2) (fun p => bind (each_projection t nb mass2 r) (fun q => Ok (p :: q))) end.
(** src/EventType.cpp:167-177 *)
Fixpoint projections_loop (t : etype) (nb : nat) (mass2 : bool) (rs : list nat) : res (list projection) :=
  match rs with [] => Ok [] | r :: rs' => bind (nCr (size t) r) (fun c => bind (each_projection t nb mass2 c) (fun p => bind (projections_loop t nb mass2 rs') (fun q => Ok (p ++ q)))) end.
Definition defaultProjections (t : etype) (nb : nat) (mass2 : bool) : res (list projection) := projections_loop t nb mass2 (seq 2 (size t - 2)).
