(** What is expected of compiled expressions. *)
From Verif.Common Require Import Prelude.
From Coq Require Import NArith.
From Verif.Utilities Require Import Model.
From Verif.Objects Require Import Model.
Section Spec.
  Context {K : Type}.
  (** The expression calls its own code. *)
  Definition own (e : expression K) (f : functions K) : Prop := f = Functions (Some (fcn e)) (db e) (batch e).
  (** The compilations of a history, with the files they use. *)
  Inductive compiles : list (action K) -> str -> expression K -> Prop :=
  | here force fname tmp e r : compiles (Compile force fname tmp e :: r) (object_ fname tmp e) e
  | later a r x e : compiles r x e -> compiles (a :: r) x e.
  Fixpoint expressions (l : list (action K)) : list (expression K) :=
    match l with [] => [] | Compile _ _ _ e :: r => e :: expressions r | Restart :: r => expressions r end.
  (** The same code. *)
  Definition same (e e' : expression K) : Prop := programatic_name (ename e) = programatic_name (ename e') /\ fcn e = fcn e' /\ db e = db e' /\ batch e = batch e'.
  (** A history with the directory [d]. *)
  Definition in_directory (d : str) (l : list (action K)) : Prop := d <> [] /\ Forall (fun a => match a with Compile _ fname _ _ => fname = d | Restart => True end) l.
End Spec.
