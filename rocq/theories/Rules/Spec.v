(** The combinations of rules, and the rule sets considered. *)
From Verif.Rules Require Import Model.
From Verif.Descriptor Require Import Spec.
From Verif.Utilities Require Import Model.
From Coq Require Import Permutation SetoidPermutation.

(** The same decay: daughters in any order. *)
Inductive alike : tree -> tree -> Prop :=
| alike_tree n ms ds es fs : Forall2 alike ds es -> Permutation es fs -> alike (Tree n ms ds) (Tree n ms fs).
(** The same amplitude: the same decay, made with the same rules. *)
Definition same (a b : tree * list rule) : Prop := alike (fst a) (fst b) /\ Permutation (snd a) (snd b).

(** One choice from each list. *)
Fixpoint choices (ls : list (list (tree * list rule))) : list (list tree * list rule) :=
  match ls with
  | [] => [([], [])]
  | l :: r => flat_map (fun a => map (fun b => (fst a :: fst b, snd a ++ snd b)) (choices r)) l
  end.

(** All ways to let the decaying particles at the ends of a tree decay, given those of each particle. *)
Fixpoint completions (decays : str -> bool) (ways : str -> list (tree * list rule)) (t : tree) : list (tree * list rule) :=
  let '(Tree n ms ds) := t in
  match ds with
  | [] => if decays n then ways n else [(t, [])]
  | _ => map (fun b => (Tree n ms (fst b), snd b)) (choices (map (completions decays ways) ds))
  end.
Section Ways.
  Variable rules : list rule.
  Definition decays (x : str) : bool := existsb (fun r => str_eqb (head_of r) x) rules.
  (** The ways a particle decays, in at most [n] generations. *)
  Fixpoint ways (n : nat) (x : str) : list (tree * list rule) :=
    match n with
    | 0 => []
    | S m => flat_map (fun r => map (fun a => (fst a, r :: snd a)) (completions decays (ways m) (particle r))) (filter (fun r => str_eqb (head_of r) x) rules)
    end.
  Definition combinations (n : nat) (c : rule) : list (tree * list rule) :=
    map (fun a => (fst a, c :: snd a)) (completions decays (ways n) (particle c)).

  (** [x] within [s] *)
  Definition within (x s : str) : Prop := exists a b, s = a ++ x ++ b.
  (** Names and modifiers without punctuation; the name of no decaying particle is contained in another name or in a
      modifier; a particle that is yet to decay has no modifiers. *)
  Inductive clean (known : str -> bool) : tree -> Prop :=
  | cl n ms ds : free_of punctuation n -> Forall (free_of punctuation) ms -> known n = true ->
      (forall x, decays x = true -> within x n -> x = n) -> (forall x m, decays x = true -> In m ms -> ~ within x m) ->
      (ds = [] -> decays n = true -> ms = []) -> Forall (clean known) ds -> clean known (Tree n ms ds).
  Definition daughters_of (t : tree) : list tree := let '(Tree _ _ ds) := t in ds.

  (** A rule as read from its text, and no particle decays to itself, in whatever generation. *)
  Definition rule_ok (w : world) (r : rule) : Prop := exists u, rname r = text u /\ (forall fuel, height u <= fuel -> read w fuel (rname r) = Ok (Some (particle r))) /\ clean (known w) u /\ daughters_of u <> [].
  Definition descends (rank : str -> nat) (r : rule) : Prop := forall x, In x (flat_map all_names (daughters_of (particle r))) -> decays x = true -> rank x < rank (head_of r).
End Ways.
