From Coq Require Import Reals List Permutation.
From Verif.Common Require Import Prelude.
From Verif.Kinematics Require Import Model Spec.
From Verif.Recursive Require Import Model.
Import ListNotations.
Local Open Scope R_scope.

(** The final states of a decay. *)
Fixpoint finals (c : chain) : list str := match c with Chain n _ ds => match ds with [] => [n] | _ => flat_map finals ds end end.
Definition final_states (c : chain) : list str := match c with Chain _ _ ds => flat_map finals ds end.
(** Names and places of the final states of a generator. *)
Fixpoint leaves (n : node) : list (str * option nat) := match n with Node nm _ s ds => match ds with [] => [(nm, s)] | _ => flat_map leaves ds end end.
Definition momentum_of (d : drawn) : p4 := match d with Drawn p _ => p end.
(** Momenta as PhaseSpace gives them: the particle has its mass, and its products add up to it at rest. *)
Fixpoint possible (n : node) (d : drawn) : Prop :=
  match n, d with
  | Node _ m _ ds, Drawn p sub =>
      dot p p = m * m /\ 0 < en p /\ 0 <= m /\
      match ds with
      | [] => True
      | _ => 0 < m /\ ~ null (vect p) /\ total (map momentum_of sub) = P4 (V3 0 0 0) m /\
             (fix go (ds : list node) (sub : list drawn) : Prop :=
                match ds, sub with [], [] => True | n :: r, d :: r' => possible n d /\ go r r' | _, _ => False end) ds sub
      end
  end.
(** The particle and all those it comes from have their masses in the event. *)
Fixpoint masses_right (evt : list p4) (n : node) : Prop :=
  match n with
  | Node _ m _ ds =>
      (exists ps, Forall2 (fun l p => exists i, snd l = Some i /\ nth_error evt i = Some p) (leaves n) ps /\ dot (total ps) (total ps) = m * m) /\
      fold_right (fun d q => masses_right evt d /\ q) True ds
  end.
(** The same for the products of one decay. *)
Definition all_possible : list node -> list drawn -> Prop :=
  fix go (ds : list node) (sub : list drawn) : Prop := match ds, sub with [], [] => True | n :: r, d :: r' => possible n d /\ go r r' | _, _ => False end.
(** The same, except that particles that decay may be at rest. *)
Fixpoint permitted (n : node) (d : drawn) : Prop :=
  match n, d with
  | Node _ m _ ds, Drawn p sub =>
      dot p p = m * m /\ 0 < en p /\ 0 <= m /\
      match ds with
      | [] => True
      | _ => 0 < m /\ total (map momentum_of sub) = P4 (V3 0 0 0) m /\
             (fix go (ds : list node) (sub : list drawn) : Prop :=
                match ds, sub with [], [] => True | n :: r, d :: r' => permitted n d /\ go r r' | _, _ => False end) ds sub
      end
  end.
Definition daughters (c : chain) : list chain := match c with Chain _ _ ds => ds end.
(** What a node stands for. *)
Fixpoint erase (n : node) : chain := match n with Node nm m _ ds => Chain nm m (map erase ds) end.
