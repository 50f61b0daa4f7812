(** Systems of particles in an event, and decay chains. *)
From Coq Require Import Reals List.
From Verif.Phsp Require Import Spec.
From Verif.Chain Require Import Model.
Import ListNotations.
Local Open Scope R_scope.

(** The momentum of a set of particles. *)
Definition system (ev : nat -> quad) (l : list nat) : quad := total (map ev l).
Definition at_rest (m2 : R) (p : quad) : Prop := p = (0, 0, 0, sqrt m2).

(** A decay chain with final state particles 0 .. N-1 where every decay has two or more daughters. *)
Fixpoint decays (p : particle) : Prop :=
  match p with
  | Stable _ m => 0 <= m
  | Decay _ ds => (2 <= List.length ds)%nat /\ fold_right (fun d P => decays d /\ P) True ds
  end.
Definition indexed (p : particle) : Prop := NoDup (map fst (finals p)) /\ Forall (fun k => (k < List.length (finals p))%nat) (map fst (finals p)).
Definition chain (p : particle) : Prop := decays p /\ indexed p /\ (2 <= List.length (finals p))%nat.

(** The parts of a decay chain. *)
Inductive part (q : particle) : particle -> Prop :=
| part_self : part q q
| part_in a d ds : In d ds -> part q d -> part q (Decay a ds).

(** What is read of a decaying particle allows the range and the Breit-Wigner to be set up. *)
Definition well (a : attrs) : Prop := 0 <= amass a /\ 0 <= awidth a /\ (quasi a = false -> flat a = false -> 0 < amass a /\ 0 < awidth a).
Definition resonances (p : particle) : Prop := forall a ds, part (Decay a ds) p -> well a.
Definition mass_of (p : particle) (k : nat) : R := match find (fun x => Nat.eqb (fst x) k) (finals p) with Some (_, m) => m | None => 0 end.
Definition allowed (p : particle) : Prop := fold_right Rplus 0 (map snd (finals p)) <= pmass p.
