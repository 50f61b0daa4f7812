(** Transcription of src/Simplify.cpp, with m_expandSubTrees false. [text] is to_string; [sort_factors] and [sort_terms] are
    the std::sort calls of lines 40-42 and 63-64, which leave the order of equal texts open: any functions here. *)
From Verif.Common Require Export Prelude.
From Verif.Expr Require Import Model.

Section Simplify.
  Variables (V : Type) (v0 v1 : V) (add mul sub : V -> V -> V) (opp inv : V -> V) (eq0 isZero isOne isAbsZero isNeg : V -> bool)
    (uval : unop -> V -> option V).
  Variable T : Type.
  Variables (text : expr V -> T) (same_text : T -> T -> bool).
  Notation expr := (expr V).
  Notation e_mul := (e_mul V v0 mul inv eq0 isZero isOne isAbsZero).
  Notation e_div := (e_div V v0 mul inv eq0 isZero isOne isAbsZero).
  Notation e_add := (e_add V v0 v1 add mul sub opp inv eq0 isZero isOne isAbsZero isNeg).

  (** A loop that builds a list. *)
  Fixpoint map_res {A B} (f : A -> res B) (l : list A) : res (list B) :=
    match l with [] => Ok [] | a :: t => bind (f a) (fun b => bind (map_res f t) (fun bs => Ok (b :: bs))) end.
  Fixpoint fold_res {A B} (f : B -> A -> res B) (l : list A) (b : B) : res B :=
    match l with [] => Ok b | a :: t => bind (f b a) (fold_res f t) end.

  (** src/Simplify.cpp:86-134 *)
  Fixpoint ExpandBrackets (fuel : nat) (e : expr) : res (list expr) :=
    match e with
    | Sum _ l r => bind (ExpandBrackets fuel l) (fun ls => bind (ExpandBrackets fuel r) (fun rs => Ok (ls ++ rs)))
    | Sub _ l r => bind (ExpandBrackets fuel l) (fun ls => bind (ExpandBrackets fuel r) (fun rs =>
        bind (map_res (e_mul fuel (Const V (Some (opp v1)))) rs) (fun rs' => Ok (ls ++ rs'))))
    | Product _ l r => bind (ExpandBrackets fuel l) (fun ls => bind (ExpandBrackets fuel r) (fun rs =>
        bind (map_res (fun a => map_res (e_mul fuel a) rs) ls) (fun ts => Ok (List.concat ts))))
    | Divide _ l r => bind (ExpandBrackets fuel l) (fun ls => bind (ExpandBrackets fuel r) (fun rs =>
        bind (fold_res (e_add fuel) rs (Const V (Some v0))) (fun s => map_res (fun a => e_div fuel a s) ls)))
    | Un _ UConj a => bind (ExpandBrackets fuel a) (fun ts => Ok (map (e_unary V uval UConj) ts))
    | _ => Ok [e]
    end.

  (** AmpGen/Simplify.h:16-25 *)
  Record term := mkTerm { prefactor : option V; factors : list expr; divisor : expr; key : T }.
  (** src/Simplify.cpp:14-32: prefactor, factors and divisor. Sums, differences and every binary node that is not a product
      or quotient are dropped (a message is printed for the first two). *)
  Fixpoint addExpression (fuel : nat) (e : expr) (st : option V * list expr * expr) : res (option V * list expr * expr) :=
    match e with
    | Product _ l r => bind (addExpression fuel l st) (addExpression fuel r)
    | Divide _ l r => bind (addExpression fuel l st) (fun '(p, fs, d) => bind (e_mul fuel d r) (fun d' => Ok (p, fs, d')))
    | Sum _ _ _ | Sub _ _ _ | Bin _ _ _ _ => Ok st
    | Const _ c => let '(p, fs, d) := st in Ok (lift2 V mul p c, fs, d)
    | _ => let '(p, fs, d) := st in Ok (p, fs ++ [e], d)
    end.
  Variable sort_factors : list expr -> list expr.
  (** src/Simplify.cpp:34-48 *)
  Definition mk_term (fuel : nat) (e : expr) : res term :=
    bind (addExpression fuel e (Some v1, [], Const V (Some v1))) (fun '(p, fs, d) =>
    let fs := sort_factors fs in
    bind (fold_res (e_mul fuel) fs (Const V (Some v1))) (fun t =>
    bind (e_div fuel t d) (fun q => Ok (mkTerm p fs d (text q))))).
  (** src/Simplify.cpp:50-55 *)
  Definition term_expression (fuel : nat) (t : term) : res expr :=
    bind (fold_res (e_mul fuel) (factors t) (Const V (prefactor t))) (fun pf => e_div fuel pf (divisor t)).
  (** src/Simplify.cpp:68-78: neighbours with the same text are merged; the marks are the terms left out here. *)
  Fixpoint group (cur : term) (l : list term) : list term :=
    match l with
    | [] => [cur]
    | t :: r => if same_text (key cur) (key t)
                then group (mkTerm (lift2 V add (prefactor cur) (prefactor t)) (factors cur) (divisor cur) (key cur)) r
                else cur :: group t r
    end.
  Definition groupExpressions (l : list term) : list term := match l with [] => [] | t :: r => group t r end.
  Variable sort_terms : list term -> list term.
  (** src/Simplify.cpp:57-66, 80-84, 136 *)
  Definition Simplify (fuel : nat) (e : expr) : res expr :=
    bind (ExpandBrackets fuel e) (fun es =>
    bind (map_res (mk_term fuel) es) (fun ts =>
    fold_res (fun total t => bind (term_expression fuel t) (e_add fuel total)) (groupExpressions (sort_terms ts)) (Const V (Some v0)))).
End Simplify.
