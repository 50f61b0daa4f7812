(** Decay trees compared, copied, expanded and reduced: src/Particle.cpp:346-359 (quasiStableTree), 857-876 (matches), 902-923 (clone,
    setDaughter, expand), AmpGen/Particle.h:258-265 (MatchState), src/Lineshapes/GenericKmatrix.cpp:26-38 (find_channel_index).

    Of a particle only what these functions use is kept. m_spinConfigurationNumber, m_lineshape, m_vertexName and m_modifiers are one
    text [other]. m_parent is left out: it is used for isHead only, and copies leave it pointing to the particle copied from. *)
From Verif.Common Require Import Prelude Writes.

(** What one particle carries: m_name, m_orbital, m_polState, m_originalIndex. *)
Record item := { name : str; orbital : nat; pol : Z; index : nat; other : str }.
(** A decay as a tree, for the functions that only read. *)
Inductive tree := Node (i : item) (ds : list tree).
Definition item_of t := match t with Node i _ => i end.
Definition daughters t := match t with Node _ ds => ds end.
(** src/Particle.cpp:778 *)
Definition stable t := match daughters t with nil => true | _ => false end.

(** AmpGen/Particle.h:258-265 *)
Definition None_ := 1%N.
Definition Exact := 2%N.
Definition PartialExpansion := 4%N.
Definition DifferentOrbital := 8%N.
Definition DifferentPolarisation := 16%N.

(** src/Particle.cpp:864-869; [None]: the function has returned MatchState::None. *)
Section Loop.
  Variable f : tree -> tree -> N.
  Fixpoint compare_daughters (xs ys : list tree) (rt : N) : option N :=
    match xs, ys with
    | x :: xs', y :: ys' => let m := f x y in if (m =? 0)%N then None else compare_daughters xs' ys' (N.lor rt m)
    | _, _ => Some rt
    end.
End Loop.
(** src/Particle.cpp:870-875 *)
Definition finish (i j : item) (rt : N) : N :=
  let rt := if orbital i =? orbital j then rt else N.lor rt DifferentOrbital in
  let rt := if Z.eqb (pol i) (pol j) then rt else N.lor rt DifferentPolarisation in
  let rt := if (rt =? 0)%N then Exact else rt in
  if negb (N.land rt Exact =? 0)%N && negb (rt =? Exact)%N then N.ldiff rt Exact else rt.
(** src/Particle.cpp:857-876 *)
Fixpoint matches (a b : tree) {struct a} : N :=
  match a, b with
  | Node i xs, Node j ys =>
      if negb (str_eqb (name i) (name j)) then None_
      else if (stable b && negb (stable a)) || (negb (stable b) && stable a) then PartialExpansion
      else if negb (List.length ys =? List.length xs) then None_
      else match compare_daughters matches xs ys 0%N with
           | None => None_
           | Some rt => finish i j rt
           end
  end.
(** src/Lineshapes/GenericKmatrix.cpp:26-38; FATAL throws. *)
Fixpoint find_from (n : nat) (p : tree) (channels : list tree) : res nat :=
  match channels with
  | nil => Throw
  | c :: cs => if (matches p c =? Exact)%N then Ok n else find_from (S n) p cs
  end.
Definition find_channel_index := find_from 0.

(** Particles in memory: the daughters are shared pointers, here addresses in the list of all particles made with make_shared. *)
Record node := { what : item; kids : list nat; cached : str }.
Definition heap := list node.
Definition with_kids (n : node) (ks : list nat) : node := {| what := what n; kids := ks; cached := cached n |}.
Definition write (h : heap) (k : nat) (d : node) : heap := match set_at k d h with Some h' => h' | None => h end.
(** src/Particle.cpp:902-912: a copy of the record, whose pointers are replaced one by one; setDaughter makes a shared particle of the clone
    that is returned. *)
Fixpoint clone (fuel : nat) (h : heap) (n : node) : res (heap * node) :=
  match fuel with
  | O => OutOfFuel
  | S f =>
      (fix go (h : heap) (done ks : list nat) : res (heap * node) :=
         match ks with
         | nil => Ok (h, with_kids n done)
         | k :: ks' =>
             match nth_error h k with
             | None => UB
             | Some d => bind (clone f h d) (fun r => go (fst r ++ [snd r]) (done ++ [List.length (fst r)]) ks')
             end
         end) h [] (kids n)
  end.
(** src/Particle.cpp:914-923: the particle given is copied, so that its daughters are shared with it; particles found on the way are changed
    in place. *)
Fixpoint expand (fuel : nat) (h : heap) (n p : node) : res (heap * node * bool) :=
  match fuel with
  | O => OutOfFuel
  | S f =>
      (fix go (h : heap) (done ks : list nat) : res (heap * node * bool) :=
         match ks with
         | nil => Ok (h, with_kids n done, false)
         | k :: ks' =>
             match nth_error h k with
             | None => UB
             | Some d =>
                 if str_eqb (name (what d)) (name (what p)) && (match kids d with nil => true | _ => false end)
                 then Ok (h ++ [p], with_kids n (done ++ List.length h :: ks'), true)
                 else bind (expand f h d p) (fun r =>
                        let '(h', d', worked) := r in
                        let h'' := write h' k d' in
                        if (worked : bool) then Ok (h'', with_kids n (done ++ k :: ks'), true) else go h'' (done ++ [k]) ks')
             end
         end) h [] (kids n)
  end.

(** src/Particle.cpp:346-359. [quasi]: isQuasiStable (781-784) of the name; [sort]: sortDaughters (674-681, C53). Particle(m_name) is made
    from the name alone: its other members have their default values (AmpGen/Particle.h:291-309), apart from m_lineshape and m_orbital, which
    pdgLookup sets for a particle without daughters as in [fresh]. *)
Section Quasi.
  Variable quasi : str -> bool.
  Variable sort : list tree -> list tree.
  Definition fresh (n : str) : item := {| name := n; orbital := 0; pol := 0; index := 999; other := [] |}.
  Fixpoint quasiStableTree (t : tree) : tree :=
    match t with
    | Node i ds =>
        Node (fresh (name i))
          (sort (flat_map (fun d => let q := quasiStableTree d in
                 if stable q || (quasi (name (item_of q)) && negb (List.length ds =? 1)) then [q] else daughters q) ds))
    end.
End Quasi.
(** The implicit copy constructor of Particle: the record with its pointers. *)
Definition copy (n : node) : node := n.
(** src/Particle.cpp:833-847, through the shared pointer to a daughter, for a state that is allowed. *)
Definition set_pol (h : heap) (k : nat) (s : Z) : heap :=
  match nth_error h k with
  | None => h
  | Some d => write h k {| what := {| name := name (what d); orbital := orbital (what d); pol := s; index := index (what d); other := other (what d) |}; kids := kids d; cached := cached d |}
  end.
