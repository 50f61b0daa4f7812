(** Notions used in the statements about expressions. *)
From Verif.Common Require Import Prelude.
From Verif.Expr Require Import Model.

Section Spec.
  Variables (V : Type) (v0 v1 : V) (add mul : V -> V -> V) (opp inv : V -> V).

  (** A set of numbers with 0, 1, sums, products and negatives; with inverses if [D]. *)
  Definition subring (K : V -> Prop) : Prop :=
    K v0 /\ K v1 /\ (forall a b, K a -> K b -> K (add a b)) /\ (forall a b, K a -> K b -> K (mul a b)) /\ (forall a, K a -> K (opp a)).
  Definition inverses (K : V -> Prop) (D : Prop) : Prop := D -> forall a, K a -> a <> v0 -> K (inv a).

  (** The constants in sums, differences, products and quotients belong to [K]; quotients occur only if [D]. *)
  Variables (K : V -> Prop) (D : Prop).
  Definition okc (c : option V) : Prop := match c with Some z => K z | None => True end.
  Fixpoint good (e : expr V) : Prop :=
    match e with
    | Const _ c => okc c
    | Divide _ l r => D /\ good l /\ good r
    | Sum _ l r | Sub _ l r | Product _ l r => good l /\ good r
    | _ => True
    end.

  (** A test for a particular number that never accepts another one of [K]. *)
  Definition exact_on (t : V -> bool) (x : V) : Prop := forall a, K a -> t a = true -> a = x.

  Fixpoint power (x : V) (n : nat) : V := match n with 0 => v1 | S n' => mul x (power x n') end.
End Spec.

(** ** C22 *)
Section Expandable.
  Variable V : Type.
  (** No quotient among the sums and products of [e]. *)
  Fixpoint no_quotient (e : expr V) : Prop :=
    match e with
    | Sum _ l r | Sub _ l r | Product _ l r => no_quotient l /\ no_quotient r
    | Divide _ _ _ => False
    | _ => True
    end.
  (** Sums, products and quotients of constants, parameters, functions, conditions and sub-expressions: no power, comparison
      or other binary node outside of these and of divisors, and no quotient in a divisor. *)
  Fixpoint expandable (e : expr V) : Prop :=
    match e with
    | Sum _ l r | Sub _ l r | Product _ l r => expandable l /\ expandable r
    | Divide _ l r => expandable l /\ no_quotient r
    | Bin _ _ _ _ => False
    | _ => True
    end.
  (** The constants of sums, products, quotients and conjugates belong to [K]; quotients need [D]. *)
  Fixpoint good_conj (K : V -> Prop) (D : Prop) (e : expr V) : Prop :=
    match e with
    | Const _ c => match c with Some z => K z | None => True end
    | Divide _ l r => D /\ good_conj K D l /\ good_conj K D r
    | Sum _ l r | Sub _ l r | Product _ l r => good_conj K D l /\ good_conj K D r
    | Un _ UConj a => good_conj K D a
    | _ => True
    end.
  (** A property of trees that is that of their parts. *)
  Definition hereditary (H : expr V -> Prop) (K : V -> Prop) (D : Prop) : Prop :=
    (forall c, match c with Some z => K z | None => True end -> H (Const V c)) /\
    (forall l r, H (Sum V l r) <-> H l /\ H r) /\ (forall l r, H (Sub V l r) <-> H l /\ H r) /\
    (forall l r, H (Product V l r) <-> H l /\ H r) /\ (forall l r, H (Divide V l r) <-> D /\ H l /\ H r) /\
    (forall a, H (Un V UConj a) <-> H a).
  (** Sums and products of constants and of parameters, functions, conditions and sub-expressions with the property [leaf]. *)
  Fixpoint polynomial (leaf : expr V -> Prop) (e : expr V) : Prop :=
    match e with
    | Const _ _ => True
    | Sum _ l r | Sub _ l r | Product _ l r => polynomial leaf l /\ polynomial leaf r
    | Divide _ _ _ | Bin _ _ _ _ | Un _ UConj _ => False
    | _ => leaf e
    end.
End Expandable.
