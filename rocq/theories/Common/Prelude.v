(** Shared definitions: strings as character lists, outcomes with undefined behaviour. *)
From Coq Require Export List Arith ZArith Lia Bool Ascii String.
Export ListNotations.
Open Scope nat_scope.
Open Scope list_scope.

(** [std::string] is modelled as the list of its characters. *)
Definition str := list ascii.
Definition S_ (s : string) : str := list_ascii_of_string s.

(** Outcome of a C++ call: a value, undefined behaviour, an exception / fatal exit,
    or (model only) a loop that has not finished within the fuel given. *)
Inductive res (A : Type) : Type :=
| Ok : A -> res A
| UB : res A
| Throw : res A
| OutOfFuel : res A.
Arguments Ok {A} a.
Arguments UB {A}.
Arguments Throw {A}.
Arguments OutOfFuel {A}.

Definition bind {A B} (r : res A) (f : A -> res B) : res B :=
  match r with Ok a => f a | UB => UB | Throw => Throw | OutOfFuel => OutOfFuel end.

Definition of_opt {A} (o : option A) : res A := match o with Some a => Ok a | None => UB end.

Fixpoint str_eqb (a b : str) : bool :=
  match a, b with
  | [], [] => true
  | c :: a', d :: b' => Ascii.eqb c d && str_eqb a' b'
  | _, _ => false
  end.

Lemma str_eqb_eq a b : str_eqb a b = true <-> a = b.
Proof.
  revert b; induction a as [|c a IH]; intros [|d b]; simpl; split; intro H; try easy.
  - apply andb_true_iff in H as [H1 H2]. apply Ascii.eqb_eq in H1. apply IH in H2. congruence.
  - injection H as -> ->. rewrite Ascii.eqb_refl. simpl. now apply IH.
Qed.

Lemma str_eqb_refl a : str_eqb a a = true.
Proof. now apply str_eqb_eq. Qed.

Lemma str_eqb_neq a b : str_eqb a b = false <-> a <> b.
Proof.
  split.
  - intros H E. apply str_eqb_eq in E. congruence.
  - intro H. destruct (str_eqb a b) eqn:E; [|reflexivity]. apply str_eqb_eq in E. contradiction.
Qed.

Lemma str_eqb_spec a b : reflect (a = b) (str_eqb a b).
Proof.
  destruct (str_eqb a b) eqn:E; constructor; [now apply str_eqb_eq | now apply str_eqb_neq].
Qed.

Definition str_dec (a b : str) : {a = b} + {a <> b} := list_eq_dec ascii_dec a b.
