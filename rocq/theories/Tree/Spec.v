(** Independent statements: which particles of two decays face each other, decays that are the same, memory and what it represents, the first
    particle to be expanded, the particles at the ends. *)
From Verif.Common Require Import Prelude.
From Verif.Tree Require Import Model.

(** Particles reached from two decays by the same path, through particles with the same name and as many daughters. *)
Inductive facing : tree -> tree -> tree -> tree -> Prop :=
| facing_here a b : facing a b a b
| facing_below a b x y k x' y' : name (item_of a) = name (item_of b) -> List.length (daughters a) = List.length (daughters b) ->
    nth_error (daughters a) k = Some x -> nth_error (daughters b) k = Some y -> facing x y x' y' -> facing a b x' y'.
Definition same_name x y := name (item_of x) = name (item_of y).
Definition same_width x y := List.length (daughters x) = List.length (daughters y).
(** The four ways in which two decays may differ. *)
Definition other_particles x y := name (item_of x) <> name (item_of y) \/ (daughters x <> [] /\ daughters y <> [] /\ List.length (daughters x) <> List.length (daughters y)).
Definition expanded_once x y := same_name x y /\ (daughters x = [] /\ daughters y <> [] \/ daughters x <> [] /\ daughters y = []).
Definition other_orbital x y := same_name x y /\ same_width x y /\ orbital (item_of x) <> orbital (item_of y).
Definition other_polarisation x y := same_name x y /\ same_width x y /\ pol (item_of x) <> pol (item_of y).
Definition somewhere (R : tree -> tree -> Prop) a b := exists x y, facing a b x y /\ R x y.
(** The same names, orbital angular momenta and polarisations throughout. *)
Inductive same_decay : tree -> tree -> Prop :=
| same_node i j xs ys : name i = name j -> orbital i = orbital j -> pol i = pol j -> Forall2 same_decay xs ys -> same_decay (Node i xs) (Node j ys).

(** The memory [h] holds, for the particle [n], the decay [t]; [fp] are the addresses used for it, as they are found. *)
Inductive holds (h : heap) : node -> tree -> list nat -> Prop :=
| holds_node n ts fp : holds_all h (kids n) ts fp -> holds h n (Node (what n) ts) fp
with holds_all (h : heap) : list nat -> list tree -> list nat -> Prop :=
| holds_nil : holds_all h [] [] []
| holds_cons k ks d t ts f fs : nth_error h k = Some d -> holds h d t f -> holds_all h ks ts fs -> holds_all h (k :: ks) (t :: ts) (k :: f ++ fs).
(** Two memories agree on some addresses. *)
Definition agree (h h' : heap) (l : list nat) := forall k, In k l -> nth_error h' k = nth_error h k.

(** A particle of this name without daughters is below [t]. *)
Inductive below (s : str) : tree -> Prop :=
| below_here i ds d : In d ds -> name (item_of d) = s -> daughters d = [] -> below s (Node i ds)
| below_deep i ds d : In d ds -> below s d -> below s (Node i ds).
Definition hit s t := name (item_of t) = s /\ daughters t = [].
(** The first such particle has been replaced by [p]. *)
Inductive replaced (p : tree) : tree -> tree -> Prop :=
| replaced_here i l d r : Forall (fun x => ~ hit (name (item_of p)) x /\ ~ below (name (item_of p)) x) l -> hit (name (item_of p)) d ->
    replaced p (Node i (l ++ d :: r)) (Node i (l ++ p :: r))
| replaced_deep i l d d' r : Forall (fun x => ~ hit (name (item_of p)) x /\ ~ below (name (item_of p)) x) l -> ~ hit (name (item_of p)) d -> replaced p d d' ->
    replaced p (Node i (l ++ d :: r)) (Node i (l ++ d' :: r)).

(** The names of the particles at the ends of a decay, from left to right. *)
Fixpoint ends (t : tree) : list str :=
  match t with Node i ds => match ds with nil => [name i] | _ => flat_map ends ds end end.
Fixpoint height (t : tree) : nat := match t with Node _ ds => S (fold_right (fun d n => Nat.max (height d) n) 0 ds) end.
(** Particles that decay, other than the first one. *)
Inductive decays_below : tree -> tree -> Prop :=
| decays_here i ds d : In d ds -> daughters d <> [] -> decays_below (Node i ds) d
| decays_deep i ds d x : In d ds -> decays_below d x -> decays_below (Node i ds) x.
(** Particles that decay and are not the only daughter. *)
Inductive vertex_below : tree -> tree -> Prop :=
| vertex_here i ds d : In d ds -> daughters d <> [] -> List.length ds <> 1 -> vertex_below (Node i ds) d
| vertex_deep i ds d x : In d ds -> vertex_below d x -> vertex_below (Node i ds) x.
(** Names and daughters as text. *)
Fixpoint text (t : tree) : str :=
  match t with Node i ds => match ds with nil => name i | _ => name i ++ S_ "{" ++ flat_map (fun d => text d ++ S_ ",") ds ++ S_ "}" end end.
