(** What events, event lists, formats and generation should do, in terms of plain lists. *)
From Verif.Events Require Import Model.
From Coq Require Import Permutation.
Local Open Scope nat_scope.

(** The event seen as the list of its first [n] four-momenta and a remainder. *)
Section View.
  Context {A : Type}.
  Definition flat (ps : list (A * A * A * A)) : list A := List.concat (map (fun '(x, y, z, t) => [x; y; z; t]) ps).
  Definition has (e : list A) (ps : list (A * A * A * A)) (rest : list A) : Prop := e = flat ps ++ rest.
  (** Exchange of two elements. *)
  Definition exchanged {B} (i j : nat) (l l' : list B) : Prop :=
    List.length l' = List.length l /\
    forall k, nth_error l' k = nth_error l (if k =? i then j else if k =? j then i else k).
  (** Element i goes to place [nth i a]. *)
  Definition sent {B} (a : list nat) (l l' : list B) : Prop :=
    List.length l' = List.length l /\ forall i p, nth_error a i = Some p -> nth_error l' p = nth_error l i.
End View.

(** The square of the sum of four-momenta. *)
Section Mass.
  Context {A : Type} (zero : A) (add sub mul : A -> A -> A).
  Definition plus4 (p q : A * A * A * A) : A * A * A * A :=
    let '(x, y, z, t) := p in let '(x', y', z', t') := q in (add x x', add y y', add z z', add t t').
  Definition total (ps : list (A * A * A * A)) : A * A * A * A := fold_right plus4 (zero, zero, zero, zero) ps.
  Definition mass2 (p : A * A * A * A) : A :=
    let '(x, y, z, t) := p in sub (sub (sub (mul t t) (mul x x)) (mul y y)) (mul z z).
End Mass.

(** The events are numbered by their positions. *)
Definition numbered {A} (l : list (entry A)) : Prop := map (index A) l = seq 0 (List.length l).

Definition Qsum (l : list Q) : Q := fold_right Qplus 0%Q l.

(** The trials of the first [b] blocks, with the numbers drawn for them. *)
Section Trials.
  Context {E : Type} (blocks : nat -> list (E * Q)) (value : E -> Q) (rnd : nat -> Q).
  Definition trials (b : nat) : list (E * Q) :=
    List.concat (map (fun i => map (fun p => (fst p, (value (fst p) / snd p)%Q)) (blocks i)) (seq 0 b)).
  Definition passing (M : Q) (l : list (E * Q)) (first : nat) : list E :=
    map (fun p => fst (fst p))
      (filter (fun p => negb (Qle_bool (snd (fst p)) (M * snd p))) (combine l (map rnd (seq first (List.length l))))).
End Trials.

(** The largest of the numbers and 0. *)
Definition largest (m : Q) (l : list Q) : Prop := In m (0%Q :: l) /\ forall w, In w (0%Q :: l) -> (w <= m)%Q.
