(** What the helpers of src/Utilities.cpp are supposed to compute, stated without reference to the model. *)
From Verif.Common Require Import Prelude.

(** C01. A tokenisation of [s] by a delimiter set: the tokens concatenate to [s]; each is a single delimiter or
    a non-empty run without delimiters; runs are maximal (two runs are never adjacent). *)
Definition is_delim_token (D : list ascii) (t : str) : Prop := exists d, In d D /\ t = [d].
Definition is_run (D : list ascii) (t : str) : Prop := t <> [] /\ (forall c, In c t -> ~ In c D).
Inductive no_adjacent_runs (D : list ascii) : list str -> Prop :=
| nar_nil : no_adjacent_runs D []
| nar_one t : no_adjacent_runs D [t]
| nar_cons t u l : ~ (is_run D t /\ is_run D u) -> no_adjacent_runs D (u :: l) -> no_adjacent_runs D (t :: u :: l).
Definition tokenisation (D : list ascii) (s : str) (toks : list str) : Prop :=
  List.concat toks = s /\ Forall (fun t => is_delim_token D t \/ is_run D t) toks /\ no_adjacent_runs D toks.
(** The same test as a boolean, to say which tokens are dropped. *)
Definition is_delim_tokenb (D : list ascii) (t : str) : bool :=
  match t with [c] => existsb (Ascii.eqb c) D | _ => false end.

(** C02. Joining with a separator. *)
Fixpoint join (d : ascii) (toks : list str) : str :=
  match toks with
  | [] => []
  | [t] => t
  | t :: ts => t ++ d :: join d ts
  end.
Definition blank (t : str) : Prop := t = [] \/ t = [" "%char] \/ t = ["010"%char] \/ t = ["009"%char].

(** C03. Left-to-right, non-overlapping substitution. *)
Inductive substituted (old new : str) : str -> str -> Prop :=
| sub_nil : substituted old new [] []
| sub_hit rest r : substituted old new rest r -> substituted old new (old ++ rest) (new ++ r)
| sub_miss c rest r : (forall q, c :: rest <> old ++ q) -> substituted old new rest r ->
    substituted old new (c :: rest) (c :: r).

(** C04. Glob semantics: each wildcard stands for an arbitrary string. *)
Inductive glob (w : ascii) : str -> str -> Prop :=
| glob_nil : glob w [] []
| glob_char c p s : c <> w -> glob w p s -> glob w (c :: p) (c :: s)
| glob_star p u s : glob w p s -> glob w (w :: p) (u ++ s).

(** C05. One edit, and sequences of edits. *)
Inductive edit1 : str -> str -> Prop :=
| e_ins u v c : edit1 (u ++ v) (u ++ c :: v)
| e_del u v c : edit1 (u ++ c :: v) (u ++ v)
| e_sub u v c d : edit1 (u ++ c :: v) (u ++ d :: v).
Inductive edits : nat -> str -> str -> Prop :=
| edits_0 a : edits 0 a a
| edits_S n a b c : edit1 a b -> edits n b c -> edits (S n) a c.

(** C07. White space of the C locale: tab, newline, vertical tab, form feed, carriage return, blank. *)
Definition white (c : ascii) : Prop := In (nat_of_ascii c) [9; 10; 11; 12; 13; 32].
Definition trimmed (s t : str) : Prop :=
  (exists l r, s = l ++ t ++ r /\ Forall white l /\ Forall white r) /\
  (forall c u, t = c :: u -> ~ white c) /\ (forall c u, t = u ++ [c] -> ~ white c).

(** C06. Exchanging two places of an array, and a sequence of exchanges. *)
Definition transpose (i j k : nat) : nat := if Nat.eqb k i then j else if Nat.eqb k j then i else k.
Definition exchange (n : nat) (p : nat * nat) (a : list nat) : list nat :=
  map (fun k => nth (transpose (fst p) (snd p) k) a 0) (seq 0 n).
Definition exchanges (n : nat) (ps : list (nat * nat)) (a : list nat) : list nat :=
  fold_left (fun b p => exchange n p b) ps a.
(** [ps] sorts [a] by exchanging places of the array. *)
Definition sorts (ps : list (nat * nat)) (a : list nat) : Prop :=
  Forall (fun p => fst p < List.length a /\ snd p < List.length a) ps /\
  exchanges (List.length a) ps a = seq 0 (List.length a).
(** The sign collected by a sequence of exchanges: exchanging particle i contributes its parity. *)
Definition collected (par : list Z) (ps : list (nat * nat)) : Z :=
  fold_right Z.mul 1%Z (map (fun p => nth (fst p) par 1%Z) ps).
