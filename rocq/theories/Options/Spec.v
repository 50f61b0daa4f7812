(** What reading options is supposed to mean. *)
From Verif.Common Require Import Prelude.

(** A plain character ends a word neither by itself nor opens a quotation or comment. *)
Definition plain (c : ascii) : Prop := c <> " "%char /\ c <> "009"%char /\ c <> """"%char /\ c <> "#"%char.
Definition blank_char (c : ascii) : Prop := c = " "%char \/ c = "009"%char.
(** Opening minus closing braces of a plain word. *)
Fixpoint balance (w : str) : Z :=
  match w with
  | [] => 0
  | c :: t => ((if Ascii.eqb c "{" then 1 else if Ascii.eqb c "}" then -1 else 0) + balance t)%Z
  end.

(** [reads line words b]: the line is written as this sequence of words; [b] is the brace balance outside quotations. *)
Inductive reads : str -> list str -> Z -> Prop :=
| r_end : reads [] [] 0
| r_blank c s ws b : blank_char c -> reads s ws b -> reads (c :: s) ws b
| r_comment s : reads ("#"%char :: s) [] 0
| r_plain w s ws b : w <> [] -> Forall plain w ->
    match s with [] => True | c :: _ => blank_char c \/ c = """"%char end ->
    reads s ws b -> reads (w ++ s) (w :: ws) (balance w + b)
| r_quoted q s ws b : q <> [] -> ~ In """"%char q -> reads s ws b ->
    reads (""""%char :: q ++ """"%char :: s) (q :: ws) b
| r_empty_quotes s ws b : reads s ws b -> reads (""""%char :: """"%char :: s) ws b.

(** The words occur in the text in this order without overlap. *)
Inductive pieces : list str -> str -> Prop :=
| p_nil g : pieces [] g
| p_cons g w ws s : pieces ws s -> pieces (w :: ws) (g ++ w ++ s).

(** The last line with a given key in a history of lines. *)
Fixpoint last_with_key (k : str) (h : list (list str)) : option (list str) :=
  match h with
  | [] => None
  | l :: t => match last_with_key k t with
              | Some r => Some r
              | None => match l with [] => None | k' :: _ => if str_eqb k k' then Some l else None end
              end
  end.

(** A line that sets an option. *)
Definition option_line (l : list str) : Prop :=
  match l with
  | [] => False
  | k :: _ => ~ In k [S_ "Import"; S_ "ParticleProperties"; S_ "ParticlePropertiesList::Alias"; S_ "ParticlePropertiesList::Import"]
  end.

(** The definition of an option that counts. *)
Definition current (h : list (list str)) (k : str) : list str :=
  match last_with_key k h with Some l => l | None => [] end.

(** Logical lines: consecutive physical lines joined until the braces balance. [words] and [bal] give the words
    and the brace balance of one physical line; [strip] removes the stand-alone brace words. *)
Section Logical.
  Variable words : str -> list str.
  Variable bal : str -> Z.
  Definition total (ls : list str) : Z := fold_right Z.add 0%Z (map bal ls).
  Definition brace_word (w : str) : Prop := w = S_ "{" \/ w = S_ "}".
  Inductive stripped : list str -> list str -> Prop :=
  | st_nil : stripped [] []
  | st_drop w l r : brace_word w -> stripped l r -> stripped (w :: l) r
  | st_keep w l r : ~ brace_word w -> stripped l r -> stripped (w :: l) (w :: r).
  Inductive logical : list str -> list (list str) -> Prop :=
  | lg_nil : logical [] []
  | lg_block chunk rest line out :
      chunk <> [] -> total chunk = 0%Z ->
      (forall pre suf, chunk = pre ++ suf -> pre <> [] -> suf <> [] -> total pre <> 0%Z) ->
      stripped (List.concat (map words chunk)) line ->
      logical rest out -> logical (chunk ++ rest) (line :: out).
End Logical.

(** Feeding a list of lines to a handler, one after the other. *)
Fixpoint feed {A} (add : list str -> A -> res A) (ls : list (list str)) (a : A) : res A :=
  match ls with
  | [] => Ok a
  | l :: t => bind (add l a) (feed add t)
  end.
