(** Transcription of the to_string functions of src/Expression.cpp, src/BinaryExpression.cpp and src/UnaryExpression.cpp
    (without AVX and CUDA), as sequences of C++ tokens: every name, number, operator and bracket printed is one token. A
    constant is printed in brackets with six significant digits; a complex constant, printed as a constructor call, is one
    bracketed number here. *)
From Verif.Common Require Export Prelude.
From Verif.Expr Require Import Model.

(** Operators of C++ and the functions printed. *)
Inductive op := OMul | ODiv | OAdd | OSub | OLT | OGT | OLE | OGE | OEq | OAnd | OOr.
Section Print.
  Variable V : Type.
  Inductive tok := TName (n : str) | TSub (key : nat) | TNum (c : option V) | TFun (f : unop + binop) | TOp (o : op) | TLP | TRP | TComma | TQ | TColon.
  (** %g: the value of the digits printed, src/Expression.cpp:57-60. *)
  Variables (v1 : V) (shown : V -> V).

  (** src/BinaryExpression.cpp:25-28, 52, 58 *)
  Definition bracketed (e : expr V) (ts : list tok) : list tok := if is_sum_or_sub V e then TLP :: ts ++ [TRP] else ts.
  (** The relational and logical nodes: src/BinaryExpression.cpp:54, 69-74. *)
  Definition infix (b : binop) : option op :=
    match b with
    | BAnd => Some OAnd | BOr => Some OOr | BGT => Some OGT | BLT => Some OLT | BGE => Some OGE | BLE => Some OLE | BEq => Some OEq
    | BPow | BFmod | BATan2 => None
    end.

  (** src/Expression.cpp:56-70, 182-188, 218-223, 250-253; src/BinaryExpression.cpp:45-77; AmpGen/Expression.h:41-58 and
      src/UnaryExpression.cpp:36-77 *)
  Fixpoint print (e : expr V) : list tok :=
    match e with
    | Const _ c => [TLP; TNum (option_map shown c); TRP]
    | Param _ n => [TName n]
    | Sum _ l r => print l ++ TOp OAdd :: print r
    | Sub _ l r => print l ++ TOp OSub :: bracketed r (print r)
    | Product _ l r => bracketed l (print l) ++ TOp OMul :: bracketed r (print r)
    | Divide _ l r => TLP :: print l ++ TRP :: TOp ODiv :: TLP :: print r ++ [TRP]
    | Bin _ b l r =>
        match infix b with
        | Some o => TLP :: print l ++ TOp o :: print r ++ [TRP]
        | None => TFun (inr b) :: TLP :: print l ++ TComma :: print r ++ [TRP]
        end
    | Un _ UISqrt a => TNum (Some v1) :: TOp ODiv :: TFun (inl USqrt) :: TLP :: print a ++ [TRP]
    | Un _ u a => TFun (inl u) :: TLP :: print a ++ [TRP]
    | Ternary _ c a b => TLP :: print c ++ TQ :: print a ++ TColon :: print b ++ [TRP]
    | SubTree _ k _ => [TSub k]
    end.
End Print.
