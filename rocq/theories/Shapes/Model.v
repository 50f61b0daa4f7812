(** Model of src/Lineshapes/{Bugg,EtaDalitz,Gaussian,Poly,PolyNR}.cpp and of pol in src/Lineshapes.cpp:135-144: the numbers that the expressions evaluate to
    (C19 is about evaluation). Real numbers stand for double, four-vectors are (x, y, z, E). The look-up of parameters by name is not represented. *)
From Verif.Common Require Import Prelude.
From Coq Require Import Reals.
From Coquelicot Require Import Hierarchy Complex.
From Verif.Lineshapes Require Import Model.
Local Open Scope R_scope.
(** src/Lineshapes.cpp:135-144: F and L go through the loop. *)
Fixpoint pol_loop (X : R) (p : list R) (F L : R) : R := match p with nil => F | ip :: p' => pol_loop X p' (F + ip * L) (L * X) end.
Definition pol (X : R) (p : list R) : R := pol_loop X p 0 1.
(** src/Lineshapes/Poly.cpp:10-18: degree + 1 parameters, those of the list [c]. *)
Definition Poly (s : R) (degree : nat) (c : nat -> R) : R := pol s (map c (seq 0 (degree + 1))).
(** src/Lineshapes/Gaussian.cpp:9-15 *)
Definition Gaussian (s mu sigma : R) : R := let d := s - mu in exp (- d * d / (2 * sigma * sigma)).
(** src/Lineshapes/PolyNR.cpp:10-40; fcn::pow with a constant exponent. *)
Definition PolyNR (s01 s02 : R) (Degree : nat) (C : nat -> nat -> R) : R :=
  let degree := (Degree + 1)%nat in
  fold_left (fun rt i => fold_left (fun rt j => rt + C i j * pow s01 i * pow s02 j) (seq 0 degree) rt) (seq 0 degree) 0.
(** Momenta. *)
Record p4 := P4 { px : R; py : R; pz : R; pe : R }.
Definition dot (a b : p4) : R := pe a * pe b - px a * px b - py a * py b - pz a * pz b.
Definition plus (a b : p4) : p4 := P4 (px a + px b) (py a + py b) (pz a + pz b) (pe a + pe b).
(** src/Lineshapes/EtaDalitz.cpp:13-32 without a modifier; [M], [mp], [mm], [m0]: mass() of the particles, those of the tables. *)
Definition EtaDalitz (pp pm p0 : p4) (M mp mm m0 : R) : R :=
  let P := plus (plus pp pm) p0 in
  let T0 := dot pp P - M * mp in let T1 := dot pm P - M * mm in let T2 := dot p0 P - M * m0 in
  let Q := T0 + T1 + T2 in
  let y := 3 * T2 / Q - 1 in
  let z := 1 - 107 / 100 * y in
  if Rlt_dec 0 z then sqrt z else 1.
(** src/Lineshapes/Bugg.cpp:46-62: the parameters and constants. *)
Record bugg := Bugg { bM : R; b1 : R; b2 : R; bA : R; g_4pi : R; g_2K : R; g_2eta : R; alpha : R; sA0 : R; s0_4pi : R; lambda_4pi : R }.
Definition mPiPlus : R := 139570 / 1000000.
Definition mKPlus : R := 493677 / 1000000.
Definition mEta : R := 547863 / 1000000.
(** src/Lineshapes/Bugg.cpp:12-42 *)
Definition rho (s s0 : R) : R := let a2 := 1 - 4 * s0 / s in if Rlt_dec 0 a2 then a2 else 0.
Definition rho_2 (s s0 : R) : C := complex_sqrt (1 - 4 * s0 / s).
Definition q (s s0 : R) : R := if Rlt_dec (4 * s0) s then s - 4 * s0 else 4 * s0 - s.
Definition rho_4pi (s lambda s0 : R) : R := 1 / (1 + exp (lambda * (s0 - s))).
Definition Buggj1 (s m0 : R) : R :=
  let rho_pipi := sqrt (rho s (m0 * m0)) in
  let addTerm := if Rlt_dec 0 rho_pipi then rho_pipi * ln ((1 - rho_pipi) / (1 + rho_pipi)) else 0 in (2 + addTerm) / PI.
Definition Gamma_4pi (s m0 M g lambda s0 : R) : R := if Rlt_dec (16 * m0 * m0) s then g * rho_4pi s lambda s0 / rho_4pi (M * M) lambda s0 else 0.
(** src/Lineshapes/Bugg.cpp:59-86 *)
Definition sA (b : bugg) : R := sA0 b * mPiPlus * mPiPlus.
Definition g1sg (b : bugg) (s : R) : R := bM b * (b1 b + b2 b * s) * exp (- (s - bM b * bM b) / bA b).
Definition adlerZero (b : bugg) (s : R) : R := (s - sA b) / (bM b * bM b - sA b).
Definition zfun (b : bugg) (s : R) : R := Buggj1 s mPiPlus - Buggj1 (bM b * bM b) mPiPlus.
Definition gamma_2pi (b : bugg) (s : R) : C := (RtoC (g1sg b s * adlerZero b s) * rho_2 s (mPiPlus * mPiPlus))%C.
Definition gamma_2K (b : bugg) (s : R) : C :=
  (RtoC (g_2K b * g1sg b s * s / (bM b * bM b) * exp (- alpha b * q s (mKPlus * mKPlus))) * rho_2 s (mKPlus * mKPlus))%C.
Definition gamma_2eta (b : bugg) (s : R) : C :=
  (RtoC (g_2eta b * g1sg b s * s / (bM b * bM b) * exp (- alpha b * q s (mEta * mEta))) * rho_2 s (mEta * mEta))%C.
Definition gamma_4pi (b : bugg) (s : R) : R := bM b * Gamma_4pi s mPiPlus (bM b) (g_4pi b) (lambda_4pi b) (s0_4pi b).
Definition Gamma_tot (b : bugg) (s : R) : C := (gamma_2pi b s + gamma_2K b s + gamma_2eta b s + RtoC (gamma_4pi b s))%C.
Definition iBW (b : bugg) (s : R) : C := (RtoC (bM b * bM b - s - g1sg b s * adlerZero b s * zfun b s) - Ci * Gamma_tot b s)%C.
Definition BW (b : bugg) (s : R) : C := (RtoC 1 / iBW b s)%C.
(** src/Lineshapes/Bugg.cpp:98: with the modifier "Az". *)
Definition BW_Az (b : bugg) (s : R) : C := (BW b s * RtoC (s - sA b) * RtoC (g1sg b s))%C.
