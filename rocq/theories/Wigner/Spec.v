(** Selection rules, in doubled units, and sums over projections. *)
From Coq Require Import Reals List ZArith Lia.
Import ListNotations.
Local Open Scope Z_scope.

Definition allowed (j1 m1 j2 m2 J M : Z) : Prop :=
  m1 + m2 = M /\ - j1 <= m1 <= j1 /\ - j2 <= m2 <= j2 /\ - J <= M <= J /\ Z.abs (j1 - j2) <= J <= j1 + j2.
(** A spin and one of its projections: -j, -j+1, ..., j. *)
Definition projection (j m : Z) : Prop := - j <= m <= j /\ Z.even (j - m) = true.
(** The spins that j1 and j2 couple to. *)
Definition couples (j1 j2 J : Z) : Prop := Z.abs (j1 - j2) <= J <= j1 + j2 /\ Z.even (j1 + j2 - J) = true.
(** (-1)^(t/2) *)
Definition phase (t : Z) : R := if Z.even (t / 2) then 1%R else (-1)%R.

Definition value (o : option R) : R := match o with Some r => r | None => 0%R end.
Fixpoint sum_over {A} (l : list A) (f : A -> R) : R := match l with [] => 0%R | a :: r => (f a + sum_over r f)%R end.

(** The coefficient of a pair of projections. *)
From Verif.Wigner Require Import Model.
Fixpoint coefficient (l : list LS) (m1 m2 : Z) : R :=
  match l with [] => 0%R | f :: r => if ((f_m1 f =? m1) && (f_m2 f =? m2))%bool then f_factor f else coefficient r m1 m2 end.
