(** C21. The grammar of expressions: names and numbers, brackets, functions of a bracket or a name, and binary operators in
    levels of precedence that associate to the left. *)
From Verif.Common Require Import Prelude.

Section Grammar.
  Variable X : Type.
  Variable value : str -> X.
  Variable func : str -> option (X -> X).
  (** The operators of each level, the tightest first, and what they compute. *)
  Variables (levels : list (list str)) (op : str -> X -> X -> X).
  Definition names : list str := List.concat levels.
  (** A name or number: anything else that does not start with a bracket. *)
  Definition atom (t : str) : Prop :=
    func t = None /\ ~ In t names /\ exists c r, t = c :: r /\ c <> "("%char /\ c <> ")"%char.

  (** [denotes L ts x]: the text [ts] of level [L] has the value [x]. *)
  Inductive denotes : nat -> list str -> X -> Prop :=
  | DAtom t : atom t -> denotes 0 [t] (value t)
  | DParen ts x : denotes (List.length levels) ts x -> denotes 0 (S_ "(" :: ts ++ [S_ ")"]) x
  | DFunAtom f g t : func f = Some g -> atom t -> denotes 0 [f; t] (g (value t))
  | DFunParen f g ts x : func f = Some g -> denotes (List.length levels) ts x -> denotes 0 (f :: S_ "(" :: ts ++ [S_ ")"]) (g x)
  | DUp L ts x : denotes L ts x -> denotes (S L) ts x
  | DBin L os o a b x y : nth_error levels L = Some os -> In o os -> denotes (S L) a x -> denotes L b y ->
      denotes (S L) (a ++ o :: b) (op o x y).
End Grammar.

(** src/ExpressionParser.cpp:169-178: the documented order. *)
Definition documented : list (list str) := [[S_ "^"]; [S_ "/"]; [S_ "*"]; [S_ "-"]; [S_ "+"]; [S_ ">"]; [S_ "<"]; [S_ "&&"]; [S_ ","]].
(** The usual grammar: * and / of one level, + and - of one level. *)
Definition conventional : list (list str) := [[S_ "^"]; [S_ "*"; S_ "/"]; [S_ "+"; S_ "-"]; [S_ ">"]; [S_ "<"]; [S_ "&&"]; [S_ ","]].

(** The operation of each operator. *)
Definition operation {X} (pow div mul sub add gt lt and_ pack : X -> X -> X) (o : str) : X -> X -> X :=
  if str_eqb o (S_ "^") then pow else if str_eqb o (S_ "/") then div else if str_eqb o (S_ "*") then mul
  else if str_eqb o (S_ "-") then sub else if str_eqb o (S_ "+") then add else if str_eqb o (S_ ">") then gt
  else if str_eqb o (S_ "<") then lt else if str_eqb o (S_ "&&") then and_ else pack.
(** Functions have names that are not operators and do not start with a bracket. *)
Definition proper_functions {X} (func : str -> option (X -> X)) : Prop :=
  forall f g, func f = Some g -> ~ In f (names documented) /\ exists c r, f = c :: r /\ c <> "("%char /\ c <> ")"%char.
