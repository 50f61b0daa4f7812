(** Cubic splines: src/Spline.cpp:63-83, 87-112, 126-151, src/Array.cpp:20-31. Real numbers instead of doubles. *)
From Coq Require Import Reals List ZArith.
From Verif.Wigner Require Import Sums.
Import ListNotations.
Local Open Scope R_scope.

(** Conversion to int, and std::fmod (for y <> 0). *)
Definition trunc (x : R) : Z := if Rle_dec 0 x then Int_part x else (- Int_part (- x))%Z.
Definition fmod (x y : R) : R := x - IZR (trunc (x / y)) * y.

(** src/Array.cpp:20-31: the address is replaced by zero if it is not between zero and the size. The memory behind the
    array is a list; reading beyond its end is [None]. *)
Definition offset (size a : R) : R := if Rle_dec 0 a then if Rlt_dec a size then a else 0 else 0.
Definition element (mem : list R) (size a : R) : option R := nth_error mem (Z.to_nat (trunc (offset size a))).

(** src/Spline.cpp:68, 130 *)
Definition spacing (n : nat) (min max : R) : R := (max - min) / (INR n - 1).

(** src/Spline.cpp:63-83. [shown] is what becomes of a constant when it is printed in the generated code
    (src/Expression.cpp:56-70); a division by a constant is a product with its inverse (src/Expression.cpp:151-154), and
    neighbouring constants are multiplied (src/Expression.cpp:114-126). *)
Section Eval.
  Variable shown : R -> R.
  Definition eval (mem : list R) (n : nat) (min max x : R) : option R :=
    let h := spacing n min max in
    let point a := element mem (shown (2 * INR n)) a in
    let dx := fmod (x - shown min) (shown h) in
    let bin := shown (/ h) * (x - shown min) in
    match point bin, point (shown 1 + bin), point (shown (INR n) + bin), point (shown (INR n + 1) + bin), point (shown (INR n - 1)) with
    | Some y0, Some y1, Some m0, Some m1, Some continued =>
        Some (if Rlt_dec (shown min) x then if Rlt_dec x (shown max) then
                y0 + (shown (/ h) * (y1 - y0) - shown (h * / 6) * (m1 + shown 2 * m0)) * dx + shown (/ 2) * (m0 * dx * dx) + shown (/ (6 * h)) * (dx * dx * dx * (m1 - m0))
              else continued else continued)
    | _, _, _, _, _ => None
    end.
End Eval.

(** src/Spline.cpp:87-112: the matrix of which [W], the transfer matrix, is the inverse computed by the GSL library. *)
Definition band (i j : nat) : R := if Nat.eqb i j then 4 else if orb (Nat.eqb (S i) j) (Nat.eqb (S j) i) then 1 else 0.

(** src/Spline.cpp:126-140: zeros at both ends. *)
Definition total (n : nat) (f : nat -> R) : R := match n with O => 0 | S k => sig k f end.
Definition mvectors (W : nat -> nat -> R) (y : list R) (min max : R) : list R :=
  let size := (length y - 2)%nat in let h := (max - min) / INR (length y - 1) in
  0 :: map (fun i => total size (fun j => 6 * W i j * (nth (j + 2) y 0 - 2 * nth (j + 1) y 0 + nth j y 0) / (h * h))) (seq 0 size) ++ [0].
(** src/Spline.cpp:126-151: the block of memory of the spline. With fewer than two knots the number of curvatures wraps. *)
Definition transfer (W : nat -> nat -> R) (y : list R) (min max : R) : option (list R) :=
  if Nat.ltb (length y) 2 then None else Some (y ++ mvectors W y min max).
