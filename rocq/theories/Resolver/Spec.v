(** What the ordering of the sub-expressions is meant to achieve, without reference to how it is computed. *)
From Verif.Common Require Import Prelude.
From Verif.Resolver Require Import Model.

(** [s] occurs in the expression with direct sub-expressions [l]. *)
Inductive occurs : list sub -> sub -> Prop :=
| occurs_here l s : In s l -> occurs l s
| occurs_below l p k l' s : In (Sub p k l') l -> occurs l' s -> occurs l s.

(** One object in memory: nodes wrapping the same address are the same node. *)
Definition one_node_per_address (e : list sub) : Prop :=
  forall s s', occurs e s -> occurs e s' -> ptr_of s = ptr_of s' -> s = s'.
(** No collision: nodes with the same key wrap expressions with the same sub-expressions. *)
Definition no_collision (e : list sub) : Prop :=
  forall s s', occurs e s -> occurs e s' -> key_of s = key_of s' ->
  forall k, In k (map key_of (inner_of s)) <-> In k (map key_of (inner_of s')).

(** The list of definitions is usable: every key once, exactly those that occur, each with an expression it stands for,
    and each only using keys defined earlier. *)
Definition good_order (e : list sub) (l : list (nat * list sub)) : Prop :=
  NoDup (map fst l) /\
  (forall k, In k (map fst l) <-> exists s, occurs e s /\ key_of s = k) /\
  (forall k t, In (k, t) l -> exists s, occurs e s /\ key_of s = k /\ inner_of s = t) /\
  (forall before k t after, l = before ++ (k, t) :: after ->
     forall s, In s t -> In (key_of s) (map fst before)).

(** Two address ranges (start, length) share no cell. *)
Definition disjoint_ranges (a s a' s' : nat) : Prop := forall x, ~ (a <= x < a + s /\ a' <= x < a' + s').
(** Nesting depth. *)
Fixpoint height (s : sub) : nat := match s with Sub _ _ l => S (list_max (map height l)) end.
(** A name not of the form used for function objects. *)
Definition plain (n : str) : Prop := forall t, n <> S_ "lxpr_" ++ t.
