(** Transcription of AmpGen/enum.h. *)
From Verif.Common Require Export Prelude.
From Verif.Utilities Require Import Model.
Local Open Scope Z_scope.

(** [c_str] as read by the C library: up to the first NUL. *)
Fixpoint cstr (s : str) : str :=
  match s with [] => [] | c :: t => if Ascii.eqb c "000" then [] else c :: cstr t end.

Definition is_digit (c : ascii) : bool := let n := nat_of_ascii c in (Nat.leb 48 n && Nat.leb n 57)%bool.
Definition digit_val (c : ascii) : Z := Z.of_nat (nat_of_ascii c) - 48.

(** The run of digits at the head: value so far, whether any digit was read, the rest. *)
Fixpoint digits (v : Z) (any : bool) (s : str) : Z * bool * str :=
  match s with
  | c :: t => if is_digit c then digits (10 * v + digit_val c) true t else (v, any, s)
  | [] => (v, any, [])
  end.

(** C [strtoul] with base 10 and 64-bit unsigned long (library semantics, used at AmpGen/enum.h:34): the value and
    the rest of the text; without digits the rest is the whole text. Too large values give 2^64-1; a minus sign
    negates modulo 2^64. *)
Definition strtoul (s : str) : Z * str :=
  let s1 := ltrim s in
  let '(neg, s2) := match s1 with
                    | c :: t => if Ascii.eqb c "-" then (true, t) else if Ascii.eqb c "+" then (false, t) else (false, s1)
                    | [] => (false, s1)
                    end in
  let '(v, any, rest) := digits 0 false s2 in
  if any then
    ((if 2 ^ 64 <=? v then 2 ^ 64 - 1 else if neg then (- v) mod 2 ^ 64 else v), rest)
  else (0, s).

(** [T(number)] for an enum class whose underlying type is a 32-bit [int]. *)
Definition to_int (v : Z) : Z := let r := v mod 2 ^ 32 in if 2 ^ 31 <=? r then r - 2 ^ 32 else r.

Fixpoint skip_blanks (s : str) : str :=
  match s with [] => [] | c :: t => if Ascii.eqb c " " then skip_blanks t else s end.
Fixpoint upto_comma (s : str) : str :=
  match s with [] => [] | c :: t => if Ascii.eqb c "," then [] else c :: upto_comma t end.
Fixpoint after_name (s : str) : str :=
  match s with [] => [] | c :: t => if Ascii.eqb c "," then s else after_name t end.

(** AmpGen/enum.h:46-54; [args] is the text from [begin] on. Each round consumes at least a character, so [fuel] =
    the length of the text is enough; running out counts as not found, which cannot happen (proved). *)
Fixpoint find_name (fuel : nat) (word args : str) (counter : Z) : option Z :=
  match fuel with
  | O => None
  | S f =>
      match args with
      | [] => None
      | _ =>
          let s := skip_blanks args in
          if str_eqb word (upto_comma s) then Some counter
          else match after_name s with
               | [] => None
               | _ :: t => find_name f word t (counter + 1)
               end
      end
  end.

(** AmpGen/enum.h:31-57; [inv] is the number of the enumerator Invalid. *)
Definition enum_parse (inv : Z) (word args : str) : Z :=
  let w := cstr word in
  let '(number, p) := strtoul w in
  match p with
  | [] => to_int number
  | _ => match find_name (S (List.length args)) w args 0 with Some c => c | None => inv end
  end.

(** AmpGen/enum.h:63-66 *)
Fixpoint skip_items (n : nat) (s : str) : str :=
  match n, s with
  | O, _ => s
  | _, [] => []
  | S n', c :: t => if Ascii.eqb c "," then skip_items n' t else skip_items n t
  end.

(** AmpGen/enum.h:58-70 for a non-negative enumerator number. *)
Definition enum_to_string (item : nat) (args : str) : str := upto_comma (skip_blanks (skip_items item args)).
