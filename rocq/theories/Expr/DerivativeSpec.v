(** C25. The functions of a real variable and where they are differentiable. *)
From Verif.Expr Require Import Model.
From Coq Require Import Reals.
Local Open Scope R_scope.

Definition func (u : unop) (x : R) : R :=
  match u with
  | ULog => ln x | USqrt => sqrt x | UExp => exp x | USin => sin x | UCos => cos x | UTan => tan x
  | UASin => asin x | UACos => acos x | UATan => atan x | UNorm => x * x | UReal | UConj => x | UImag => 0
  | UISqrt => / sqrt x | UAbs => Rabs x | ULGamma => 0 (* not treated *)
  end.
(** The interior of the domain. *)
Definition inner (u : unop) (x : R) : Prop :=
  match u with
  | ULog | USqrt | UISqrt => 0 < x
  | UTan => cos x <> 0
  | UASin | UACos => -1 < x < 1
  | UAbs => x <> 0
  | _ => True
  end.
(** Real numbers as values of expressions: functions are defined on their domains, powers for positive bases. *)
Definition defined (u : unop) (x : R) : bool :=
  match u with
  | ULog | UISqrt => if Rlt_dec 0 x then true else false
  | USqrt => if Rle_dec 0 x then true else false
  | UTan => if Req_EM_T (cos x) 0 then false else true
  | UASin | UACos => if Rle_dec (-1) x then if Rle_dec x 1 then true else false else false
  | ULGamma => false
  | _ => true
  end.
Definition uvalR (u : unop) (x : R) : option R := if defined u x then Some (func u x) else None.
Definition bvalR (b : binop) (x y : R) : option R := match b with BPow => if Rlt_dec 0 x then Some (Rpower x y) else None | _ => None end.
Definition eq0R (x : R) : bool := if Req_EM_T x 0 then true else false.
