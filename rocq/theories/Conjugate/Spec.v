(** What AddCPConjugate is to do, in terms of names and values. *)
From Verif.Common Require Import Prelude.
From Coq Require Import Reals.
From Coquelicot Require Import Hierarchy Complex.
From Verif.Conjugate Require Import Model.

(** A piece of a name: no separator in it, and not blank. *)
Definition piece (t : str) : Prop := ~ In underscore t /\ ~ In ":"%char t /\ t <> [] /\ t <> S_ " " /\ t <> "010"%char :: nil /\ t <> "009"%char :: nil.
(** The name of the parameter for the conjugate of what parameter [n] is for, and the factor its value gets. *)
Inductive conjugate_name (w : world) : str -> str -> Z -> Prop :=
| of_property p a x : ~ In ":"%char p -> anti w p = Some a -> conjugate_name w (p ++ S_ "::" ++ x) (a ++ S_ "::" ++ x) 1
| of_particle p a x : piece p -> piece x -> x <> S_ "Re" -> x <> S_ "Im" -> anti w p = Some a -> conjugate_name w (p ++ S_ "_" ++ x) (a ++ S_ "_" ++ x) 1
| of_real p d : piece p -> decay_of w p = Ok d -> ~ In (head d) (forbidden w) -> distinct d = true ->
    (coordinates w = S_ "polar" \/ coordinates w = S_ "cartesian") -> conjugate_name w (p ++ S_ "_Re") (conjUnique d ++ S_ "_Re") (CP d)
| of_imaginary p d : piece p -> decay_of w p = Ok d -> ~ In (head d) (forbidden w) -> distinct d = true ->
    coordinates w = S_ "cartesian" -> conjugate_name w (p ++ S_ "_Im") (conjUnique d ++ S_ "_Im") (CP d)
| of_phase p d : piece p -> decay_of w p = Ok d -> ~ In (head d) (forbidden w) -> distinct d = true ->
    coordinates w = S_ "polar" -> conjugate_name w (p ++ S_ "_Im") (conjUnique d ++ S_ "_Im") 1
| of_expression p d : piece p -> valid w p = true -> decay_of w p = Ok d -> ~ In (head d) (forbidden w) -> conjugate_name w p (conjDescriptor d) 1.
Definition names (l : list entry) : list str := map fst l.
