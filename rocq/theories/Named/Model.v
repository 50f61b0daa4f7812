(** Transcription of AmpGen/NamedParameter.h. *)
From Verif.Common Require Export Prelude.
From Verif.Common Require Import Writes.

Section Named.
  (** The type of the parameter: its default-constructed value [T()], equality, and lexical_cast (the number or word read
      and the status). *)
  Variables (T : Type) (T0 : T) (eqT : T -> T -> bool) (cast : str -> T * bool).

  (** AmpGen/NamedParameter.h:48-56; writing past the end does not occur since the array was resized. *)
  Fixpoint set_words (i : nat) (words : list str) (arr : list T) : res (list T) :=
    match words with
    | [] => Ok arr
    | w :: t =>
        let '(v, status) := cast w in
        if status then bind (of_opt (set_at i v arr)) (set_words (S i) t) else set_words (S i) t arr
    end.

  (** AmpGen/NamedParameter.h:39-58; [line] is what the options parser finds under the name. *)
  Definition setFromOptionsParser (line : option (list str)) (arr : list T) : res (list T) :=
    match line with
    | None => Ok arr
    | Some vsl => if Nat.ltb (List.length vsl) 2 then Ok arr
                  else set_words 0 (tl vsl) (repeat T0 (List.length vsl - 1))
    end.

  (** AmpGen/NamedParameter.h:61-69 and 70-77 *)
  Definition named (line : option (list str)) (def : T) : res (list T) := setFromOptionsParser line [def].
  Definition named_vector (line : option (list str)) (def : list T) : res (list T) := setFromOptionsParser line def.

  (** AmpGen/NamedParameter.h:97-105 *)
  Definition getVal (arr : list T) (i : nat) : res T := match nth_error arr i with Some v => Ok v | None => Throw end.

  (** AmpGen/NamedParameter.h:139-149; [line x] is what the parser finds under the name followed by [x]. *)
  Fixpoint getVectorArgument_loop (fuel : nat) (line : nat -> option (list str)) (def : T) (x : nat) (acc : list T) : res (list T) :=
    match fuel with
    | 0 => OutOfFuel
    | S f =>
        bind (named (line x) def) (fun arr => bind (getVal arr 0) (fun obj =>
        let acc' := if eqT obj T0 then acc else acc ++ [obj] in
        if eqT obj def then Ok acc' else getVectorArgument_loop f line def (S x) acc'))
    end.
  Definition getVectorArgument (fuel : nat) (line : nat -> option (list str)) (def : T) : res (list T) :=
    getVectorArgument_loop fuel line def 0 [].
End Named.

(** src/Utilities.cpp:459-471: lexical_cast<bool>. *)
Definition cast_bool (w : str) : bool * bool :=
  if (str_eqb w (S_ "1") || str_eqb w (S_ "true"))%bool then (true, true)
  else if (str_eqb w (S_ "0") || str_eqb w (S_ "false"))%bool then (false, true)
  else (false, false).
(** src/Utilities.cpp:444-448 *)
Definition cast_string (w : str) : str * bool := (w, true).
