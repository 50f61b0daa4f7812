(** Identifiers, and families of decays over words that can be told apart. *)
From Verif.Symbols Require Import Model.
From Verif.Descriptor Require Import Spec.

(** An identifier: a letter or underscore, then letters, digits and underscores. *)
Definition letters : str := S_ "abcdefghijklmnopqrstuvwxyzABCDEFGHIJKLMNOPQRSTUVWXYZ_".
Definition digits : str := S_ "0123456789".
Definition identifier (s : str) : Prop := exists c r, s = c :: r /\ In c letters /\ forall d, In d r -> In d letters \/ In d digits.
(** Some words that are no identifiers all the same. *)
Definition keywords : list str := map S_ ["double"; "int"; "new"; "this"; "delete"; "and"; "or"; "not"; "xor"]%string.

(** Names and modifiers: a word starts with a letter, and the symbol of none, followed by an underscore, starts that of
    another. *)
Definition starts_with (p s : str) : Prop := exists r, s = p ++ r.
Definition words_ok (word : str -> Prop) : Prop :=
  (forall u, word u -> exists c r, u = c :: r /\ In c letters /\ c <> "_"%char) /\
  (forall u v, word u -> word v -> starts_with (programatic_name u ++ S_ "_") (programatic_name v ++ S_ "_") -> u = v).
(** Trees over such words; which particles decay is known from their names. *)
Inductive made_of (name modifier : str -> Prop) (decaying : str -> bool) : tree -> Prop :=
| mo n ms ds : name n -> Forall modifier ms -> (decaying n = false <-> ds = []) -> Forall (made_of name modifier decaying) ds -> made_of name modifier decaying (Tree n ms ds).
