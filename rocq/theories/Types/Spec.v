(** Choices of particles, and decays. *)
From Verif.Common Require Import Prelude.
From Coq Require Import Reals Sorted.
Local Open Scope R_scope.
(** [r] of the numbers below [n], in increasing order. *)
Definition choice (n r : nat) (c : list nat) : Prop := List.length c = r /\ StronglySorted lt c /\ Forall (fun i => (i < n)%nat) c.
(** An event with the energies and momenta of particles of the masses [ms], at places 4i+3 and 4i, 4i+1, 4i+2, with total mass [M]. *)
Definition at_ (e : list R) (i : nat) : R := List.nth i e 0.
Fixpoint sum (f : nat -> R) (l : list nat) : R := match l with [] => 0 | i :: r => f i + sum f r end.
Definition mass2 (e : list R) (l : list nat) : R :=
  let part k := sum (fun i => at_ e (4 * i + k)) l in part 3%nat * part 3%nat - part 0%nat * part 0%nat - part 1%nat * part 1%nat - part 2%nat * part 2%nat.
Definition decay (M : R) (ms : list R) (e : list R) : Prop :=
  0 <= M /\ (4 * List.length ms <= List.length e)%nat /\ mass2 e (seq 0 (List.length ms)) = M * M /\
  forall i m, nth_error ms i = Some m -> 0 <= m /\ 0 <= at_ e (4 * i + 3) /\ mass2 e [i] = m * m.
(** How often a name occurs. *)
Definition occurrences (x : str) (l : list str) : nat := count_occ str_dec l x.
