From Verif.Common Require Import Prelude.
From Verif.Enum Require Import Model Spec Proofs.
Local Open Scope Z_scope.

(** ** C15 *)
(** Names are distinct identifiers; the text of the macro arguments may have any number of blanks after the commas. *)
Theorem C15_round_trip : forall inv items, Forall identifier (map snd items) -> NoDup (map snd items) ->
  forall i w, nth_error (map snd items) i = Some w ->
  enum_to_string i (arg_text items) = w /\ enum_parse inv w (arg_text items) = Z.of_nat i.
Proof.
  exact (fun inv items F ND i w E => conj (to_string_name items F i w E) (enum_parse_name inv items i w F ND E)).
Qed.
Print Assumptions C15_round_trip.
Definition flag_names : list (nat * str) :=
  [(0, S_ "Free"); (1, S_ "Hide"); (1, S_ "Fix"); (1, S_ "CompileTimeConstant"); (1, S_ "Blind"); (1, S_ "Invalid")]%nat.
Example C15_example : arg_text flag_names = S_ "Free, Hide, Fix, CompileTimeConstant, Blind, Invalid" /\
  Forall identifier (map snd flag_names) /\ NoDup (map snd flag_names).
Proof.
  split; [reflexivity|]. split.
  - apply Forall_forall. intros x H. apply identifierb_spec. revert x H. apply forallb_forall. reflexivity.
  - repeat constructor; simpl; intuition discriminate.
Qed.
(** The full claim: a word that is no name parses as Invalid. True of every word that is not empty and not a number. *)
Theorem C15_unknown_word_partial : forall inv items w, Forall identifier (map snd items) -> ~ In "000"%char w ->
  w <> [] -> ~ number_word w -> ~ In w (map snd items) -> enum_parse inv w (arg_text items) = inv.
Proof. exact enum_parse_other. Qed.
Print Assumptions C15_unknown_word_partial.
Example C15_unknown_example : enum_parse 5 (S_ "Frei") (arg_text flag_names) = 5.
Proof. reflexivity. Qed.
(** Numbers are taken as they are (documented for flags), whether or not there is such an enumerator. *)
Theorem C15_number : forall inv s args, numeral s -> decimal 0 s < 2 ^ 31 -> enum_parse inv s args = decimal 0 s.
Proof. exact enum_parse_numeral. Qed.
Print Assumptions C15_number.
Theorem C15_number_refuted : exists w, ~ In w (map snd flag_names) /\ forall inv, enum_parse inv w (arg_text flag_names) = 17.
Proof. exists (S_ "17"). split; [simpl; intuition discriminate|reflexivity]. Qed.
Theorem C15_empty_refuted : ~ In [] (map snd flag_names) /\ forall inv, enum_parse inv [] (arg_text flag_names) = 0.
Proof. split; [simpl; intuition discriminate|reflexivity]. Qed.
