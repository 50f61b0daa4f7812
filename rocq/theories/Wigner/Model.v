(** Clebsch-Gordan coefficients: src/Wigner.cpp:27-32 (fact), 73-98 (CG), 162-187 (recoupling constants).
    Spins and projections are integers or half-integers; they are represented by their doubles, which are exact. The
    arithmetic is exact here (in double it is rounded; factorials are exact up to 22!). *)
From Coq Require Import QArith Reals Qreals List ZArith Lia.
Import ListNotations.
Local Open Scope Z_scope.

(** src/Wigner.cpp:27-32; the loop runs over the integers from 1 up to z, so none if z < 1 and up to the floor of z. *)
Fixpoint factn (n : nat) : Z := match n with O => 1 | S k => factn k * Z.of_nat n end.
Definition fact2 (t : Z) : Z := factn (Z.to_nat (t / 2)).

(** src/Wigner.cpp:82-84: the number under the square root. *)
Definition norm (j1 m1 j2 m2 J M : Z) : Q :=
  let f1 := (J + 1) * fact2 (J + j1 - j2) * fact2 (J - j1 + j2) * fact2 (j1 + j2 - J) in
  let f2 := fact2 (j1 + m1) * fact2 (j1 - m1) * fact2 (j2 + m2) * fact2 (j2 - m2) * fact2 (J + M) * fact2 (J - M) in
  inject_Z (f1 * f2) / inject_Z (fact2 (J + j1 + j2 + 2)).

(** src/Wigner.cpp:87-95 *)
Definition sgn (nu : nat) : Z := if Nat.even nu then 1 else -1.
Definition term (j1 m1 j2 m2 J : Z) (nu : nat) : Q :=
  let n := 2 * Z.of_nat nu in
  let arg1 := j1 + j2 - J - n in
  let arg2 := j1 - m1 - n in
  let arg3 := j2 + m2 - n in
  let arg4 := J - j2 + m1 + n in
  let arg5 := J - j1 - m2 + n in
  if (arg1 <? 0) || (arg2 <? 0) || (arg3 <? 0) || (arg4 <? 0) || (arg5 <? 0) then 0%Q
  else inject_Z (sgn nu) / inject_Z (factn nu * fact2 arg1 * fact2 arg2 * fact2 arg3 * fact2 arg4 * fact2 arg5).
(** The loop of 86: nu = 0, 1, ... while nu <= j1+j2-J. *)
Definition last (j1 j2 J : Z) : nat := if j1 + j2 - J <? 0 then O else S (Z.to_nat ((j1 + j2 - J) / 2)).
Definition total (j1 m1 j2 m2 J : Z) : Q := fold_left (fun s nu => s + term j1 m1 j2 m2 J nu)%Q (seq 0 (last j1 j2 J)) 0%Q.

(** src/Wigner.cpp:73-98. The square root of a negative number is not a number: [None]. *)
Definition CG (j1 m1 j2 m2 J M : Z) : option R :=
  if negb (m1 + m2 =? M) then Some 0%R
  else if Qlt_le_dec (norm j1 m1 j2 m2 J M) 0 then None
  else Some (sqrt (Q2R (norm j1 m1 j2 m2 J M)) * Q2R (total j1 m1 j2 m2 J))%R.

(** src/Wigner.cpp:162-187: the (m1, m2) considered, by increasing m1 and then m2, each from -j in steps of one, and the
    two coefficients; those whose product with sqrt((2L+1)/(2J+1)) is zero are left out (182). The argument M is not
    used, J is the spin of the decaying particle. *)
Definition projections (j : Z) : list Z := map (fun i => - j + 2 * Z.of_nat i) (seq 0 (if j <? 0 then 0 else S (Z.to_nat j))).
Record LS := mkLS { f_m1 : Z; f_m2 : Z; f_cg1 : R; f_cg2 : R; f_factor : R }.
Definition recoupling_term (J L S j1 j2 : Z) (m1 m2 : Z) : option LS :=
  match CG L 0 S (m1 - m2) J (m1 - m2), CG j1 m1 j2 (- m2) S (m1 - m2) with
  | Some a, Some b => Some (mkLS m1 m2 a b (sqrt ((IZR L + 1) / (IZR J + 1)) * (a * b)))
  | _, _ => None
  end.
Fixpoint keep (l : list (option LS)) : option (list LS) :=
  match l with
  | [] => Some []
  | None :: _ => None
  | Some f :: r => match keep r with None => None | Some k => Some (if Req_EM_T (f_factor f) 0 then k else f :: k) end
  end.
Definition recoupling (J L S j1 j2 : Z) : option (list LS) :=
  keep (flat_map (fun m1 => map (fun m2 => recoupling_term J L S j1 j2 m1 m2) (projections j2)) (projections j1)).
