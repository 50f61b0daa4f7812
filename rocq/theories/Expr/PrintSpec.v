(** C20. Reading C++ expressions: recursive descent with the precedence and associativity of the C++ grammar. *)
From Verif.Common Require Import Prelude.
From Verif.Expr Require Import Model Print.

(** 1: * /; 2: + -; 3: relations; 4: ==; 5: &&; 6: ||. All associate to the left. *)
Definition level (o : op) : nat :=
  match o with OMul | ODiv => 1 | OAdd | OSub => 2 | OLT | OGT | OLE | OGE => 3 | OEq => 4 | OAnd => 5 | OOr => 6 end.

Section Reader.
  Variable V : Type.
  (** The value of names, of the variables holding sub-expressions, of operators, of function calls and the truth of conditions. *)
  Variables (name : str -> option V) (var : nat -> option V) (apply : op -> option V -> option V -> option V)
    (call : unop + binop -> list (option V) -> option V) (truth : V -> bool).
  Notation tok := (tok V).
  Definition out := option (option V * list tok).
  Definition obind {A B} (o : option A) (k : A -> option B) : option B := match o with Some a => k a | None => None end.
  (** c ? a : b evaluates only the branch chosen. *)
  Definition choose (c a b : option V) : option V := match c with Some x => if truth x then a else b | None => None end.

  (** Level 0: primary expressions; 1 to 6: binary operators; 7: conditional expressions, the top. The outer [None] is a
      syntax error or lack of fuel. *)
  Fixpoint parse (fuel : nat) (L : nat) (ts : list tok) : out :=
    match fuel with
    | 0 => None
    | S f =>
        match L with
        | 0 => match ts with
               | TName _ n :: r => Some (name n, r)
               | TSub _ k :: r => Some (var k, r)
               | TNum _ c :: r => Some (c, r)
               | TLP _ :: r => obind (parse f 7 r) (fun '(v, r') => match r' with TRP _ :: r'' => Some (v, r'') | _ => None end)
               | TFun _ g :: TLP _ :: r => obind (arguments f r) (fun '(vs, r') => Some (call g vs, r'))
               | _ => None
               end
        | 7 => obind (parse f 6 ts) (fun '(c, r) =>
               match r with
               | TQ _ :: r1 => obind (parse f 7 r1) (fun '(a, r2) =>
                   match r2 with
                   | TColon _ :: r3 => obind (parse f 7 r3) (fun '(b, r4) => Some (choose c a b, r4))
                   | _ => None
                   end)
               | _ => Some (c, r)
               end)
        | S L' => obind (parse f L' ts) (fun '(v, r) => operators f L v r)
        end
    end
  with operators (fuel : nat) (L : nat) (acc : option V) (ts : list tok) : out :=
    match fuel with
    | 0 => None
    | S f =>
        match ts with
        | TOp _ o :: r => if Nat.eqb (level o) L
                          then obind (parse f (L - 1) r) (fun '(v, r') => operators f L (apply o acc v) r')
                          else Some (acc, ts)
        | _ => Some (acc, ts)
        end
    end
  with arguments (fuel : nat) (ts : list tok) : option (list (option V) * list tok) :=
    match fuel with
    | 0 => None
    | S f => obind (parse f 7 ts) (fun '(v, r) =>
             match r with
             | TComma _ :: r' => obind (arguments f r') (fun '(vs, r'') => Some (v :: vs, r''))
             | TRP _ :: r' => Some ([v], r')
             | _ => None
             end)
    end.
  (** The text [ts] has the value [v]. *)
  Definition reads (ts : list tok) (v : option V) : Prop := exists f0, forall f, f0 <= f -> parse f 7 ts = Some (v, []).
End Reader.

Section Faithful.
  Variable V : Type.
  (** What is assumed of the nodes of a tree: [cst] of its constants, [un] and [bin] of its function nodes and [sub] of its
      sub-expressions. *)
  Variables (cst : V -> Prop) (un : unop -> Prop) (bin : binop -> Prop) (sub : nat -> expr V -> Prop).
  Fixpoint nodes (e : expr V) : Prop :=
    match e with
    | Const _ c => match c with Some x => cst x | None => True end
    | Param _ _ => True
    | Sum _ l r | Sub _ l r | Product _ l r | Divide _ l r => nodes l /\ nodes r
    | Bin _ b l r => bin b /\ nodes l /\ nodes r
    | Un _ u a => un u /\ nodes a
    | Ternary _ c a b => nodes c /\ nodes a /\ nodes b
    | SubTree _ k a => sub k a
    end.
End Faithful.

Section Meaning.
  Variable V : Type.
  Definition strict2 (f : V -> V -> option V) (a b : option V) : option V := match a, b with Some x, Some y => f x y | _, _ => None end.
  Definition strict1 (f : V -> option V) (a : option V) : option V := match a with Some x => f x | None => None end.
  (** The C++ operators and functions compute what the nodes of the kinds [un] and [bin] compute in memory. *)
  Definition same_meaning (v1 : V) (add mul sub div : V -> V -> V) (eq0 : V -> bool) (bval : binop -> V -> V -> option V) (uval : unop -> V -> option V)
    (apply : op -> option V -> option V -> option V) (call : unop + binop -> list (option V) -> option V) (un : unop -> Prop) (bin : binop -> Prop) : Prop :=
    (forall a b, apply OAdd a b = lift2 V add a b) /\ (forall a b, apply OSub a b = lift2 V sub a b) /\
    (forall a b, apply OMul a b = lift2 V mul a b) /\ (forall a b, apply ODiv a b = odiv V div eq0 a b) /\
    (forall b o x y, bin b -> infix b = Some o -> apply o x y = strict2 (bval b) x y) /\
    (forall b x y, bin b -> infix b = None -> call (inr b) [x; y] = strict2 (bval b) x y) /\
    (forall u x, un u -> u <> UISqrt -> call (inl u) [x] = strict1 (uval u) x) /\
    (forall x, un UISqrt -> odiv V div eq0 (Some v1) (call (inl USqrt) [x]) = strict1 (uval UISqrt) x).
End Meaning.
