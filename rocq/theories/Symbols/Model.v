(** Symbol names of generated code: src/CompiledExpressionBase.cpp:37-47. *)
From Verif.Common Require Export Prelude.

(** isdigit and isalnum in the C locale. A character above 127 is negative as a [char], for which the standard leaves
    isalnum undefined; as in glibc it is not alphanumeric. *)
Definition code (c : ascii) : nat := nat_of_ascii c.
Definition isdigit (c : ascii) : bool := Nat.leb 48 (code c) && Nat.leb (code c) 57.
Definition isalpha (c : ascii) : bool := Nat.leb 65 (code c) && Nat.leb (code c) 90 || Nat.leb 97 (code c) && Nat.leb (code c) 122.
Definition isalnum (c : ascii) : bool := isdigit c || isalpha c.

(** std::replace *)
Definition replace (a b : ascii) (s : str) : str := map (fun c => if Ascii.eqb c a then b else c) s.
(** src/CompiledExpressionBase.cpp:39-46; [s[0]] of an empty string is the terminating zero. *)
Definition programatic_name (s0 : str) : str :=
  let s := replace "-" "m" s0 in
  let s := replace "+" "p" s in
  let s := replace "-" "m" s in
  let s := replace "*" "s" s in
  let s := map (fun c => if negb (isalnum c) then "_"%char else c) s in
  let s := match s with c :: _ => if isdigit c then "f"%char :: s else s | [] => s end in
  replace "'" "_" s.

(** src/CompiledExpressionBase.cpp:88, 93: the symbols of an expression, the function and that of its name. *)
Definition symbols (name : str) : list str := [programatic_name name ++ S_ "_name"; programatic_name name].
(** src/CoherentSum.cpp:388: the name of an interference term. *)
Definition interference (a b : str) : str := programatic_name a ++ S_ "_" ++ programatic_name b.
