(** Transcription of the functions d() of src/UnaryExpression.cpp. *)
From Verif.Common Require Export Prelude.
From Verif.Expr Require Import Model.

Section Derivative.
  Variables (V : Type) (v0 v1 : V) (add mul sub : V -> V -> V) (opp inv : V -> V) (eq0 isZero isOne isAbsZero isNeg : V -> bool)
    (uval : unop -> V -> option V).
  (** The constants 2 and 1.5. *)
  Variables (two onehalf : V).
  Notation expr := (expr V).
  Notation e_mul := (e_mul V v0 mul inv eq0 isZero isOne isAbsZero).
  Notation e_div := (e_div V v0 mul inv eq0 isZero isOne isAbsZero).
  Notation e_neg := (e_neg V v0 v1 mul opp inv eq0 isZero isOne isAbsZero).
  Notation e_sub := (e_sub V v0 v1 mul sub opp inv eq0 isZero isOne isAbsZero).
  Notation e_add := (e_add V v0 v1 add mul sub opp inv eq0 isZero isOne isAbsZero isNeg).
  Notation fcn := (e_unary V uval).
  Notation c v := (Const V (Some v)).
  (** src/UnaryExpression.cpp:80-99; [a] is arg(). *)
  Definition d (fuel : nat) (u : unop) (a : expr) : res expr :=
    match u with
    | ULog => e_div fuel (c v1) a
    | USqrt => bind (e_mul fuel (c two) (fcn USqrt a)) (e_div fuel (c v1))
    | UExp => Ok (fcn UExp a)
    | UCos => e_neg fuel (fcn USin a)
    | USin => Ok (fcn UCos a)
    | UTan => bind (e_mul fuel (fcn UCos a) (fcn UCos a)) (e_div fuel (c v1))
    | UACos => bind (e_mul fuel a a) (fun m => bind (e_sub fuel (c v1) m) (fun s => e_div fuel (c v1) (fcn USqrt s)))
    | UASin => bind (e_mul fuel a a) (fun m => bind (e_sub fuel (c v1) m) (fun s => e_div fuel (c (opp v1)) (fcn USqrt s)))
    | UATan => bind (e_mul fuel a a) (fun m => bind (e_add fuel (c v1) m) (e_div fuel (c v1)))
    | UISqrt => bind (e_mul fuel (c two) (Bin V BPow a (c onehalf))) (e_div fuel (c (opp v1)))
    | UConj | UAbs | UNorm | UReal | UImag | ULGamma => Ok (c v0)
    end.
End Derivative.
