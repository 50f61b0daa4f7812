(** The text of an enumeration as the macros see it, and what a number word is. *)
From Verif.Common Require Import Prelude.

Definition letter (c : ascii) : Prop :=
  let n := nat_of_ascii c in (65 <= n <= 90 \/ 97 <= n <= 122 \/ n = 95)%nat.
Definition digit (c : ascii) : Prop := let n := nat_of_ascii c in (48 <= n <= 57)%nat.
Definition identifier (s : str) : Prop :=
  match s with [] => False | c :: t => letter c /\ Forall (fun d => letter d \/ digit d) t end.

(** The text of the macro arguments: names separated by commas, each preceded by blanks. *)
Fixpoint arg_text (items : list (nat * str)) : str :=
  match items with
  | [] => []
  | [(k, n)] => repeat " "%char k ++ n
  | (k, n) :: t => repeat " "%char k ++ n ++ ","%char :: arg_text t
  end.

(** Decimal numeral and its value. *)
Fixpoint decimal (v : Z) (s : str) : Z :=
  match s with [] => v | c :: t => decimal (10 * v + (Z.of_nat (nat_of_ascii c) - 48)) t end.
Definition numeral (s : str) : Prop := s <> [] /\ Forall digit s.
(** A number as the C library reads it: white space, an optional sign, digits. *)
Definition number_word (s : str) : Prop :=
  exists ws sg ds, s = ws ++ sg ++ ds /\ Forall (fun c => In (nat_of_ascii c) [9; 10; 11; 12; 13; 32]%nat) ws /\
    (sg = [] \/ sg = ["-"%char] \/ sg = ["+"%char]) /\ numeral ds.
