(** Orders, sorted lists, canonical descriptors. *)
From Verif.Order Require Import Model.
From Verif.Species Require Export Spec.
From Coq Require Import Permutation Sorted.

(** What the comparison may look at. *)
Definition alike (a b : particle) : Prop :=
  twoSpin (props_of a) = twoSpin (props_of b) /\ isStable a = isStable b /\ mass (props_of a) = mass (props_of b) /\
  charge (props_of a) = charge (props_of b) /\ pid (props_of a) = pid (props_of b) /\ index a = index b.

(** In a group of particles of equal spin, mass and stability, a particle listed with its antiparticle is the one
    of the higher charge. True of the mesons; false for baryons such as Delta(1232)-. *)
Definition charged_up (S : particle -> Prop) : Prop :=
  forall a b, S a -> S b -> (pid (props_of a) > 0)%Z -> pid (props_of b) = (- pid (props_of a))%Z ->
    twoSpin (props_of a) = twoSpin (props_of b) -> mass (props_of a) = mass (props_of b) -> isStable a = isStable b ->
    (charge (props_of b) <= charge (props_of a))%Z.

(** [l'] is [l] sorted stably: a rearrangement, in order, in which the elements that cannot be told apart keep the
    order they had. *)
Definition tie {A} (lt : A -> A -> bool) (a b : A) : bool := negb (lt a b) && negb (lt b a).
Definition stably_sorted {A} (lt : A -> A -> bool) (l l' : list A) : Prop :=
  Permutation l l' /\ StronglySorted (fun a b => lt b a = false) l' /\ forall a, In a l -> filter (tie lt a) l' = filter (tie lt a) l.

(** The table returns an antiparticle for an antiparticle and back. *)
Definition paired (get : Z -> option props) (p : props) : Prop :=
  distinct p = true -> pid p <> 0%Z /\ get (pid p) = Some p /\ exists q, get (- pid p)%Z = Some q /\ pid q = (- pid p)%Z /\ distinct q = true.
Inductive all_nodes (Q : props -> Prop) : particle -> Prop :=
| an p i m ds : Q p -> Forall (all_nodes Q) ds -> all_nodes Q (Part p i m ds).
