(** Transcription of src/Expression.cpp, src/BinaryExpression.cpp and src/UnaryExpression.cpp: expression trees, their
    evaluation and the operators that build them. *)
From Verif.Common Require Export Prelude.

(** The binary and unary nodes other than + - * /. *)
Inductive binop := BAnd | BOr | BGT | BLT | BGE | BLE | BEq | BPow | BFmod | BATan2.
Inductive unop := ULog | USqrt | UExp | USin | UCos | UTan | UASin | UACos | UATan | UNorm | UReal | UImag | UISqrt | UConj | UAbs | ULGamma.

Section Expr.
  (** [complex_t] with exact arithmetic, an arbitrary field. [None] is a value that is not a number: the result of a
      division by zero; nothing is claimed about computing with it. *)
  Variables (V : Type) (v0 v1 : V) (add mul sub : V -> V -> V) (opp : V -> V) (div : V -> V -> V) (inv : V -> V).
  (** Equality with zero, decided. *)
  Variable eq0 : V -> bool.
  (** src/Expression.cpp:51-54 isZero, 46-49 isEqual(.,1) and isEqual(.,0), 82 real(.) < 0. The first three accept
      what is within the machine epsilon. *)
  Variables (isZero isOne isAbsZero isNeg : V -> bool).
  (** The meaning of the other nodes, src/BinaryExpression.cpp:34-43, src/UnaryExpression.cpp:17-35; the condition
      of a ternary, AmpGen/Expression.h:238. *)
  Variables (bval : binop -> V -> V -> option V) (uval : unop -> V -> option V) (tval : V -> bool).

  (** AmpGen/Expression.h. Not modelled: ComplexParameter, LambdaExpression, Function and ExpressionPack. *)
  Inductive expr :=
  | Const (c : option V)
  | Param (n : str)
  | Sum (l r : expr) | Sub (l r : expr) | Product (l r : expr) | Divide (l r : expr)
  | Bin (b : binop) (l r : expr)
  | Un (u : unop) (e : expr)
  | Ternary (c a b : expr)
  | SubTree (key : nat) (e : expr).

  Definition lift2 (f : V -> V -> V) (a b : option V) : option V :=
    match a, b with Some x, Some y => Some (f x y) | _, _ => None end.
  Definition oinv (a : option V) : option V := match a with Some x => if eq0 x then None else Some (inv x) | None => None end.
  Definition odiv (a b : option V) : option V :=
    match a, b with Some x, Some y => if eq0 y then None else Some (div x y) | _, _ => None end.
  Definition otest (t : V -> bool) (a : option V) : bool := match a with Some x => t x | None => false end.

  (** The operator() of the nodes: src/BinaryExpression.cpp:30-43, src/UnaryExpression.cpp:14-35,
      AmpGen/Expression.h:160,190,238,253. *)
  Fixpoint eval (rho : str -> V) (e : expr) : option V :=
    match e with
    | Const c => c
    | Param n => Some (rho n)
    | Sum l r => lift2 add (eval rho l) (eval rho r)
    | Sub l r => lift2 sub (eval rho l) (eval rho r)
    | Product l r => lift2 mul (eval rho l) (eval rho r)
    | Divide l r => odiv (eval rho l) (eval rho r)
    | Bin b l r => match eval rho l, eval rho r with Some x, Some y => bval b x y | _, _ => None end
    | Un u a => match eval rho a with Some x => uval u x | None => None end
    | Ternary c a b => match eval rho c with Some x => if tval x then eval rho a else eval rho b | None => None end
    | SubTree _ a => eval rho a
    end.

  (** is<T>(e) and cast<T>(e). *)
  Definition as_const (e : expr) : option (option V) := match e with Const c => Some c | _ => None end.
  Definition as_sum (e : expr) : option (expr * expr) := match e with Sum l r => Some (l, r) | _ => None end.
  Definition as_product (e : expr) : option (expr * expr) := match e with Product l r => Some (l, r) | _ => None end.
  Definition as_divide (e : expr) : option (expr * expr) := match e with Divide l r => Some (l, r) | _ => None end.
  Definition is_sum_or_sub (e : expr) : bool := match e with Sum _ _ | Sub _ _ => true | _ => false end.
  Definition const_test (t : V -> bool) (e : expr) : bool := match as_const e with Some c => otest t c | None => false end.

  (** src/Expression.cpp:114-126, 138-146, 148-164. [fuel] bounds the depth of the mutual recursion. *)
  Fixpoint simplify_multiplication (fuel : nat) (c : option V) (e : expr) : res expr :=
    match fuel with
    | 0 => OutOfFuel
    | S f =>
        match as_const e with
        | Some k => Ok (Const (lift2 mul c k))
        | None =>
            if otest isOne c then Ok e
            else if otest isZero c then Ok (Const (Some v0))
            else match as_product e with
                 | Some (l, r) => bind (simplify_multiplication f c l) (fun m => e_mul f m r)
                 | None => Ok (Product (Const c) e)
                 end
        end
    end
  with e_mul (fuel : nat) (A B : expr) : res expr :=
    match fuel with
    | 0 => OutOfFuel
    | S f =>
        match as_const A, as_const B, as_divide A, as_divide B with
        | Some a, _, _, _ => simplify_multiplication f a B
        | None, Some b, _, _ => simplify_multiplication f b A
        | None, None, Some (l, r), _ => bind (e_mul f l B) (fun x => e_div f x r)
        | None, None, None, Some (l, r) => bind (e_mul f A l) (fun x => e_div f x r)
        | None, None, None, None => if is_sum_or_sub A then Ok (Product B A) else Ok (Product A B)
        end
    end
  with e_div (fuel : nat) (A B : expr) : res expr :=
    match fuel with
    | 0 => OutOfFuel
    | S f =>
        if const_test isAbsZero A then Ok (Const (Some v0))
        else match as_const B, as_product B, as_divide B with
             | Some b, _, _ => if otest isOne b then Ok A else e_mul f A (Const (oinv b))
             | None, Some (l, r), _ =>
                 match as_const l, as_const r with
                 | Some k, _ => bind (e_mul f (Const (oinv k)) A) (fun x => e_div f x r)
                 | None, Some k => bind (e_mul f (Const (oinv k)) A) (fun x => e_div f x l)
                 | None, None => Ok (Divide A B)
                 end
             | None, None, Some (l, r) => bind (e_mul f A r) (fun x => e_div f x l)
             | None, None, None => Ok (Divide A B)
             end
    end.

  (** src/Expression.cpp:193 *)
  Definition e_neg (fuel : nat) (A : expr) : res expr := e_mul fuel (Const (Some (opp v1))) A.
  (** src/Expression.cpp:103-112 *)
  Definition e_sub (fuel : nat) (A B : expr) : res expr :=
    if const_test isZero A then e_neg fuel B
    else if const_test isZero B then Ok A
    else match as_const A, as_const B with
         | Some a, Some b => Ok (Const (lift2 sub a b))
         | _, _ => Ok (Sub A B)
         end.
  (** src/Expression.cpp:80-86, for the product of [l] and [r]. *)
  Definition simplify_product_addition (fuel : nat) (l r e : expr) : res expr :=
    match as_const l with
    | Some k => if otest isNeg k
                then bind (e_mul fuel (Const (lift2 mul (Some (opp v1)) k)) r) (fun m => e_sub fuel e m)
                else Ok (Sum e (Product l r))
    | None => Ok (Sum e (Product l r))
    end.
  (** src/Expression.cpp:72-78, 88-101; the flag [status] always stays true. *)
  Fixpoint simplify_constant_addition (fuel : nat) (c : option V) (e : expr) : res expr :=
    match fuel with
    | 0 => OutOfFuel
    | S f =>
        if otest isZero c then Ok e
        else match as_const e, as_sum e with
             | Some k, _ => Ok (Const (lift2 add c k))
             | None, Some (l, r) => bind (simplify_constant_addition f c l) (fun m => e_add f m r)
             | None, None => Ok (Sum (Const c) e)
             end
    end
  with e_add (fuel : nat) (A B : expr) : res expr :=
    match fuel with
    | 0 => OutOfFuel
    | S f =>
        match as_const A, as_const B, as_product A, as_product B with
        | Some a, _, _, _ => simplify_constant_addition f a B
        | None, Some b, _, _ => simplify_constant_addition f b A
        | None, None, Some (l, r), _ => simplify_product_addition f l r B
        | None, None, None, Some (l, r) => simplify_product_addition f l r A
        | None, None, None, None => Ok (Sum A B)
        end
    end.

  (** src/Expression.cpp:275-278, the functions of lines 280-294 (conj: line 291). *)
  Definition e_unary (u : unop) (e : expr) : expr :=
    match u, e with
    | UConj, Param _ => e
    | _, Const c => Const (match c with Some x => uval u x | None => None end)
    | _, _ => Un u e
    end.
  (** src/Expression.cpp:301-307 *)
  Definition e_pow (e co : expr) : expr :=
    match co with
    | Const c => if otest isAbsZero c then Const (Some v1) else if otest isOne c then e else Bin BPow e co
    | _ => Bin BPow e co
    end.
  (** src/Expression.cpp:322-327; [n] does not overflow. *)
  Fixpoint fpow_loop (fuel n : nat) (x rt : expr) : res expr :=
    match n with 0 => Ok rt | S n' => bind (e_mul fuel rt x) (fpow_loop fuel n' x) end.
  Definition e_fpow (fuel : nat) (x : expr) (n : Z) : res expr :=
    if Z.ltb n 0 then bind (fpow_loop fuel (Z.to_nat (- n)) x (Const (Some v1))) (e_div fuel (Const (Some v1)))
    else fpow_loop fuel (Z.to_nat n) x (Const (Some v1)).
End Expr.
