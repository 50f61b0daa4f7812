(** What indexing and the product of indexed tensors are meant to be. *)
From Verif.Common Require Import Prelude.
From Verif.Tensor Require Import Model.
Local Open Scope nat_scope.

(** A coordinate for each dimension, each below it. *)
Definition in_range (co dim : list nat) : Prop := Forall2 (fun c d => c < d) co dim.

Definition ids (l : list index) : list nat := map fst l.
(** An assignment of values to indices. *)
Definition assign (rho : nat -> nat) (x k : nat) : nat -> nat := fun y => if y =? x then k else rho y.

Section Spec.
  Variables (V : Type) (v0 v1 : V) (add mul sub : V -> V -> V) (opp : V -> V).

  (** The sum of [f 0], ..., [f (n-1)]. *)
  Fixpoint vsum (f : nat -> V) (n : nat) : V := match n with 0 => v0 | S n' => add (vsum f n') (f n') end.
  (** The Minkowski metric for an index that is up on one side and down on the other: + for the last coordinate (3, the
      energy), - for the others. *)
  Definition metric (up_and_down : bool) (k : nat) : V := if up_and_down then (if k =? 3 then v1 else opp v1) else v1.
  (** The sum over all values of the repeated indices (identity, dimension, up and down). *)
  Fixpoint einstein (cs : list (nat * nat * bool)) (rho : nat -> nat) (F : (nat -> nat) -> V) : V :=
    match cs with
    | [] => F rho
    | (x, d, ud) :: cs' => vsum (fun k => mul (metric ud k) (einstein cs' (assign rho x k) F)) d
    end.
  (** The indices of the second factor that also occur in the first. *)
  Definition repeated (i1 i2 : list index) (d2 : list nat) : list (nat * nat * bool) :=
    flat_map (fun bd => match find (fun a => fst a =? fst (fst bd)) i1 with
      | Some a => [(fst (fst bd), snd bd, xorb (snd (fst bd)) (snd a))] | None => [] end) (combine i2 d2).
  Definition not_in (l : list index) (a : index) : bool := negb (existsb (fun b => fst b =? fst a) l).

  (** A usable indexed tensor with components [T]: one index per dimension, no index twice, no empty dimension. *)
  Definition components (p : proxy V) (T : list nat -> V) : Prop :=
    List.length (idx p) = List.length (dims (ten p)) /\ NoDup (ids (idx p)) /\ Forall (fun d => 0 < d) (dims (ten p)) /\
    forall co, in_range co (dims (ten p)) -> at_co (ten p) co = Ok (T co).
  (** A repeated index has the same dimension on both sides. *)
  Definition same_dims (p1 p2 : proxy V) : Prop := forall x d1 d2,
    In (x, d1) (combine (ids (idx p1)) (dims (ten p1))) -> In (x, d2) (combine (ids (idx p2)) (dims (ten p2))) -> d1 = d2.
  (** Every index has a value below its dimension. *)
  Definition values (p : proxy V) (rho : nat -> nat) : Prop :=
    forall x d, In (x, d) (combine (ids (idx p)) (dims (ten p))) -> rho x < d.
End Spec.
