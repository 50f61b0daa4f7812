(** Lineshapes: src/Lineshapes.cpp and src/Lineshapes/. Real and complex numbers instead of expressions: what an expression evaluates to is
    C19-C22. Masses, widths and the other parameters are arguments. *)
From Verif.Common Require Import Prelude.
From Coq Require Import Reals.
From Coquelicot Require Import Hierarchy Complex.
From Verif.Tensor Require Import Invert.
From Coq Require Import List.
Local Open Scope R_scope.

(** src/Expression.cpp:296-314 *)
Definition safe_sqrt (x : R) : R := if Rlt_dec 0 x then sqrt x else 0.
Definition complex_sqrt (x : R) : C := if Rlt_dec 0 x then RtoC (sqrt x) else (Ci * RtoC (sqrt (- x)))%C.
(** exp(i x) for a real x: std::exp, src/UnaryExpression.cpp:19 *)
Definition cis (x : R) : C := (cos x, sin x).

(** src/Lineshapes.cpp:11-15: the square of the momentum of either of two particles of squared masses a and b with invariant mass sqrt(s) *)
Definition Q2 (s a b : R) : R := (s - 2 * a - 2 * b + (a - b) * (a - b) / s) / 4.
(** src/Lineshapes.cpp:17-24 *)
Definition kFactor (mass width : R) : R :=
  let gamma := mass * sqrt (mass * mass + width * width) in
  sqrt (2 * sqrt 2 / PI * mass * width * gamma / sqrt (mass * mass + gamma)).
(** src/Lineshapes.cpp:26-40 *)
Definition BlattWeisskopf_Norm (z z0 : R) (L : nat) : R :=
  match L with
  | 0%nat => 1
  | 1%nat => (1 + z0) / (1 + z)
  | 2%nat => (z0 * z0 + 3 * z0 + 9) / (z * z + 3 * z + 9)
  | 3%nat => (z0 * (z0 - 15) ^ 2 + 9 * (2 * z0 - 5) ^ 2) / (z * (z - 15) ^ 2 + 9 * (2 * z - 5) ^ 2)
  | 4%nat => ((z0 * z0 - 45 * z0 + 105) ^ 2 + 25 * z * (2 * z - 21) ^ 2) / ((z * z - 45 * z + 105) ^ 2 + 25 * z * (2 * z - 21) ^ 2)
  | _ => 0
  end.
(** src/Lineshapes.cpp:42-55 *)
Definition BlattWeisskopf (z : R) (L : nat) : R :=
  match L with
  | 0%nat => 1
  | 1%nat => 2 * z ^ 1 / (1 + z)
  | 2%nat => 13 * z ^ 2 / (z * z + 3 * z + 9)
  | 3%nat => 277 * z ^ 3 / (z * (z - 15) ^ 2 + 9 * (2 * z - 5) ^ 2)
  | 4%nat => 12746 * z ^ 4 / ((z * z - 45 * z + 105) ^ 2 + 25 * z * (2 * z - 21) ^ 2)
  | _ => 0
  end.
(** src/Lineshapes.cpp:57-67 *)
Definition BL (s s0 s1 s2 radius : R) (L : nat) : R :=
  let q2 := Rabs (Q2 s s1 s2) in let q20 := Rabs (Q2 s0 s1 s2) in
  sqrt (BlattWeisskopf (q2 * radius * radius) L / BlattWeisskopf (q20 * radius * radius) L).
(** src/Lineshapes.cpp:77-94 *)
Definition width (s s1 s2 mass width0 radius : R) (L : nat) : R :=
  let q2v := Q2 s s1 s2 in
  let q2 := if Rlt_dec 0 q2v then q2v else 0 in
  let q20 := Rabs (Q2 (mass * mass) s1 s2) in
  let BF := BlattWeisskopf_Norm (q2 * radius * radius) (q20 * radius * radius) L in
  let q2r := q2 / q20 in
  width0 * BF * mass * sqrt (q2r / s) * q2r ^ L.
(** src/Lineshapes.cpp:135-144: F and L are carried along. *)
Definition pol (X : R) (p : list R) : R := fst (fold_left (fun FL ip => (fst FL + ip * snd FL, snd FL * X)) p (0, 1)).

(** src/Lineshapes/BW.cpp:60-84, 86-96 *)
Inductive modifier := Default | BLMod | BELLE2018 | NFF.
Definition FormFactor (m : modifier) (s s1 s2 mass radius : R) (L : nat) : R :=
  let q2 := Rabs (Q2 s s1 s2) in let q20 := Rabs (Q2 (mass * mass) s1 s2) in
  match m with
  | Default => sqrt (BlattWeisskopf_Norm (q2 * radius * radius) 0 L)
  | BLMod => sqrt (BlattWeisskopf (q2 * radius * radius) L)
  | BELLE2018 => sqrt (BlattWeisskopf_Norm (q2 * radius * radius) (q20 * radius * radius) L)
  | NFF => 1
  end.
Definition BW (m : modifier) (s s1 s2 mass width0 radius : R) (L : nat) : C :=
  let runningWidth := width s s1 s2 mass width0 radius L in
  let bw := (RtoC (FormFactor m s s1 s2 mass radius L) / (RtoC (mass * mass - s) - Ci * RtoC (mass * runningWidth)))%C in
  match m with BELLE2018 => bw | _ => (RtoC (kFactor mass width0) * bw)%C end.
Definition SBW (s mass width0 : R) : C := (RtoC (kFactor mass width0) * (RtoC 1 / (RtoC (mass * mass - s) - Ci * RtoC (mass * width0))))%C.
(** src/Lineshapes/NonRelBW.cpp:13-23 *)
Definition NonRelBW (s mass width0 : R) : C :=
  (RtoC (sqrt (width0 / 2 / PI)) / (RtoC (sqrt s - mass) - Ci * RtoC (width0 / 2)))%C.

(** src/Lineshapes/GounarisSakurai.cpp:15-30, 39-45, 55: the running mass *)
Definition gs_q2 (mpi s : R) : R := s - 4 * mpi * mpi.
Definition gs_q (mpi s : R) : R := safe_sqrt (gs_q2 mpi s).
Definition gs_log (mpi s : R) : R := ln ((sqrt s + safe_sqrt (gs_q2 mpi s)) / (2 * mpi)).
Definition gs_M2 (mpi mass width0 s : R) : R :=
  let s0 := mass * mass in
  let t1 := 2 * s0 * gs_q2 mpi s * gs_q mpi s * gs_log mpi s / (sqrt s * gs_q mpi s0 ^ 3) in
  let t2 := gs_log mpi s0 * (gs_q2 mpi s * (s - 3 * s0) + s * (s0 - s)) / (mass * gs_q2 mpi s0) in
  let t3 := (s0 - s) / gs_q mpi s0 in
  s0 + width0 * (t1 + t2 + t3) / PI.
(** src/Lineshapes/GounarisSakurai.cpp:46-55 *)
Definition GounarisSakurai (mpi : R) (useRadius normalisedFF : bool) (s s1 s2 mass width0 radius : R) (L : nat) : C :=
  let D := (RtoC (gs_M2 mpi mass width0 s) - Ci * RtoC (mass * width s s1 s2 mass width0 (if useRadius then radius else 0) L))%C in
  let q2 := Rabs (Q2 s s1 s2) in
  let ff := if normalisedFF then sqrt (BlattWeisskopf (q2 * radius * radius) L) else sqrt (BlattWeisskopf_Norm (q2 * radius * radius) 0 L) in
  (RtoC (kFactor mass width0 * ff) / (D - RtoC s))%C.

(** src/Lineshapes/Flatte.cpp:9-18, 19-65. Without the modifier kFactor, against which the code itself warns. *)
Definition aSqrtTerm (s m0 : R) : R := let a2 := 1 - 4 * m0 * m0 / s in if Rlt_dec 0 a2 then sqrt a2 else 0.
Definition fSqrtTerm (s m0 : R) : C := complex_sqrt (1 - 4 * m0 * m0 / s).
Record flatte_masses := FlatteMasses { mPi0 : R; mPiPlus : R; mK0 : R; mKPlus : R; mEta : R }.
Definition flatte_width (h : flatte_masses) (name : str) (cutKK : bool) (g g_by_g s : R) : C :=
  if str_dec name (S_ "f(0)(980)0") then
    let Gpipi := (RtoC (1 / 3) * fSqrtTerm s (mPi0 h) + RtoC (2 / 3) * fSqrtTerm s (mPiPlus h))%C in
    let GKK := if cutKK then RtoC (1 / 2 * aSqrtTerm s (mK0 h) + 1 / 2 * aSqrtTerm s (mKPlus h))
               else (RtoC (1 / 2) * fSqrtTerm s (mK0 h) + RtoC (1 / 2) * fSqrtTerm s (mKPlus h))%C in
    (RtoC g * (Gpipi + RtoC g_by_g * GKK))%C
  else if str_dec name (S_ "a(0)(980)0") then
    let M_pieta := (mPiPlus h + mEta h) * (mPiPlus h + mEta h) in
    let P_pieta := (mPiPlus h - mEta h) * (mPiPlus h - mEta h) in
    let Gpieta := sqrt ((1 - P_pieta / s) * (1 - M_pieta / s)) in
    (RtoC g * (RtoC Gpieta + RtoC g_by_g * fSqrtTerm s (mKPlus h)))%C
  else RtoC 0.
Definition Flatte (h : flatte_masses) (name : str) (cutKK : bool) (g g_by_g mass s : R) : C :=
  (RtoC 1 / (RtoC (mass * mass) - Ci * RtoC mass * flatte_width h name cutKK g g_by_g s - RtoC s))%C.

(** src/Lineshapes/LASS.cpp:13-52 *)
Record lass := Lass { lass_bw : C; lass_shift : C; lass_nr : C; lass_phase : R; lass_rho : R }.
Definition LASS_parts (s s1 s2 mass width0 a r : R) : lass :=
  let s0 := mass * mass in
  let q2 := Q2 s s1 s2 in
  let q20 := Q2 s0 s1 s2 in
  let q := safe_sqrt q2 in
  let rho := q / sqrt s in
  let rho0 := sqrt q20 / mass in
  let gamma := width0 * rho / rho0 in
  let tan_phi1 := 2 * a * q / (2 + a * r * q2) in
  let tan_phi2 := mass * gamma / (s0 - s) in
  {| lass_bw := (RtoC (mass * width0) / (RtoC rho0 * (RtoC (s0 - s) - Ci * RtoC (mass * gamma))))%C;
     lass_shift := ((RtoC (2 + a * r * q2) + Ci * RtoC (2 * a * q)) / (RtoC (2 + a * r * q2) - Ci * RtoC (2 * a * q)))%C;
     lass_nr := (RtoC (2 * a * sqrt s) / (RtoC (2 + a * r * q * q) - RtoC 2 * Ci * RtoC (a * q)))%C;
     lass_phase := atan tan_phi1 + atan tan_phi2;
     lass_rho := rho |}.
Inductive lass_modifier := LassBW | LassNR | LassTotal.
Definition LASS (m : lass_modifier) (s s1 s2 mass width0 a r : R) : C :=
  let p := LASS_parts s s1 s2 mass width0 a r in
  match m with LassBW => (lass_bw p * lass_shift p)%C | LassNR => lass_nr p | LassTotal => (lass_nr p + lass_bw p * lass_shift p)%C end.
(** src/Lineshapes/GLASS.cpp:13-43 *)
Definition GLASS (s s1 s2 mass width0 a r phiR phiF R_ F_ : R) : C :=
  let s0 := mass * mass in
  let q2 := Q2 s s1 s2 in
  let q20 := Q2 s0 s1 s2 in
  let q := safe_sqrt q2 in
  let wid := width0 * mass * sqrt (q2 / (q20 * s)) in
  let rbw := (RtoC (s0 * width0) / (RtoC (sqrt q20) * (RtoC (mass * mass - s) - Ci * RtoC (mass * wid))))%C in
  let den := (RtoC (1 + / 2 * r * a * q2) - Ci * RtoC (a * q))%C in
  let resTerm := (RtoC R_ * cis (phiR + 2 * phiF) * rbw * (RtoC (1 + / 2 * r * a * q2) + Ci * RtoC (a * q)))%C in
  let nrTerm := (RtoC F_ * cis phiF * RtoC ((a * q * cos phiF + (1 + / 2 * r * a * q2) * sin phiF) * sqrt s / q))%C in
  ((nrTerm + resTerm) / den)%C.
(** src/Lineshapes/Isotensor.cpp:12-29: the parameter a comes in degrees. *)
Definition Isotensor (s a b c d : R) : C :=
  let mpi := 139570 / 1000000 in
  let polyTerm := pol s (1 :: b :: c :: d :: nil) in
  let phaseShift := - 2 * (a * PI / 180) * sqrt (s / 4 - mpi * mpi) / polyTerm in
  ((cis phaseShift - RtoC 1) / (RtoC 2 * Ci))%C.
(** src/Lineshapes/SplineShapes.cpp:94-101: of the values of the two splines *)
Definition InelasticSpline (inelasticity phaseShift : R) : C :=
  let phi := (RtoC (cos (2 * phaseShift)) + Ci * RtoC (sin (2 * phaseShift)))%C in
  ((RtoC inelasticity * phi - RtoC 1) * (RtoC (- / 2) * Ci))%C.

(** src/Lineshapes/kMatrix.cpp:20-38 *)
Definition phsp_twoBody (s m0 m1 : R) : C := complex_sqrt (1 - (m0 + m1) * (m0 + m1) / s).
Definition phsp_FOCUS (s m0 m1 : R) : C :=
  let mp := m0 + m1 in let mm := m0 - m1 in complex_sqrt ((1 - mp * mp / s) * (1 - mm * mm / s)).
(** src/Lineshapes/CoupledChannel.cpp:37-49, 145 *)
Definition Hr (x y z : R) : C := complex_sqrt (x * x + y * y + z * z - 2 * x * y - 2 * x * z - 2 * z * y).
Definition rho_twoBody (s s1 s2 : R) : C := (Hr s s1 s2 / RtoC (16 * PI * s))%C.
Definition phsp_0707_3596 (s s1 s2 : R) : C := (RtoC 2 * complex_sqrt (Q2 s s1 s2 / s))%C.
(** src/Lineshapes/CoupledChannel.cpp:99-109 *)
Definition blatt_weisskopf_sq (L : nat) (z : R) : R :=
  match L with
  | 0%nat => 1
  | 1%nat => 2 * z / (1 + z)
  | 2%nat => 13 * z * z / (z * z + 3 * z * 9)
  | 3%nat => 277 * z * z * z / (z * (z - 15) * (z - 15) + 9 * (2 * z - 5) * (2 * z - 5))
  | _ => 0
  end.

(** Sums over channels *)
Fixpoint csum (n : nat) (f : nat -> C) : C := match n with O => RtoC 0 | S m => (csum m f + f m)%C end.
Definition cinvert (n : nat) (m : nat -> C) : nat -> C :=
  invert C (RtoC 0) (RtoC 1) Cplus Cmult Cminus Copp Cdiv (fun i j => (i * n + j)%nat) n m.
(** src/Lineshapes/kMatrix.cpp:52-63. The tensor that is inverted is a fresh one, without symmetries; Tensor::Invert is the function of C29. *)
Definition getPropagator (n : nat) (kMatrix : nat -> nat -> C) (phaseSpace : nat -> C) : nat -> nat -> C :=
  let T := fun c => let i := Nat.div c n in let j := Nat.modulo c n in ((if Nat.eqb i j then RtoC 1 else RtoC 0) - Ci * kMatrix i j * phaseSpace j)%C in
  fun i j => cinvert n T (i * n + j)%nat.
(** AmpGen/kMatrix.h:27-41; src/Lineshapes/kMatrix.cpp:65-79 *)
Record poleConfig := Pole { pole_s : C; couplings : nat -> R }.
Definition constructKMatrix (s : R) (poles : list poleConfig) (i j : nat) : C :=
  fold_left (fun sum p => (sum + RtoC (couplings p i * couplings p j) / (pole_s p - RtoC s))%C) poles (RtoC 0).
(** src/Lineshapes/kMatrix.cpp:154-161; src/Lineshapes/GenericKmatrix.cpp:160-165 is the case i = j = 0. *)
Definition scatt (n : nat) (kMatrix F : nat -> nat -> C) (i j : nat) : C := csum n (fun x => (kMatrix x i * F j x)%C).
(** src/Lineshapes/kMatrix.cpp:162-169, src/Lineshapes/kMatrixSimple.cpp:74-82, src/Lineshapes/GenericKmatrix.cpp:144-158: pole [p] in the final
    state [f] *)
Definition pole_term (n : nat) (F : nat -> nat -> C) (p : poleConfig) (s : R) (f : nat) : C :=
  (csum n (fun i => F f i * RtoC (couplings p i)) / (pole_s p - RtoC s))%C.
(** src/Lineshapes/kMatrix.cpp:47-50 *)
Definition gFromGamma (m gamma rho : R) : R := sqrt (m * gamma / rho).
(** src/Lineshapes/kMatrix.cpp:105-112: the square of the mass of a pole *)
Definition kMatrix_pole (addImaginaryMass : bool) (mass : R) : C :=
  (RtoC (mass * mass) + (if addImaginaryMass then Ci * RtoC (/ 1000000) else RtoC 0))%C.

(** src/Lineshapes/GenericKmatrix.cpp:123-143: the loop over poles for one channel k. The state is (phi[k], P[k]). *)
Definition pvec_step (n : nat) (a : nat -> R) (non_resonant : nat -> nat -> C) (s s_0 : R) (k : nat) (st : C * C) (p : poleConfig) : C * C :=
  let beta := csum n (fun q => RtoC (a q * couplings p q)) in
  let phi := (fst st + csum n (fun q => RtoC (a q) * non_resonant k q))%C in
  (phi, (snd st + (beta * RtoC (couplings p k) / (pole_s p - RtoC s) + phi * RtoC (1 + s_0) / RtoC (s - s_0)))%C).
Definition pvec (n : nat) (a : nat -> R) (non_resonant : nat -> nat -> C) (s s_0 : R) (poles : list poleConfig) (k : nat) : C :=
  snd (fold_left (pvec_step n a non_resonant s s_0 k) poles (RtoC 0, RtoC 0)).
Definition GenericKmatrix_PVec (n : nat) (propagator : nat -> nat -> C) (a : nat -> R) (non_resonant : nat -> nat -> C) (s s_0 : R) (poles : list poleConfig) : C :=
  csum n (fun k => (propagator 0%nat k * pvec n a non_resonant s s_0 poles k)%C).

(** src/Lineshapes/FOCUS.cpp:51-57, 73-77 and the same lines of src/Lineshapes/PALANO.cpp: two channels *)
Definition two_channel_Kpi (K11 K12 K22 rho1 rho2 : C) : C :=
  let detK := (K11 * K22 - K12 * K12)%C in
  let del := (RtoC 1 - rho1 * rho2 * detK - Ci * (rho1 * K11 + rho2 * K22))%C in
  ((K11 - Ci * rho2 * detK) / del)%C.
Definition two_channel_KEta (K11 K12 K22 rho1 rho2 : C) : C :=
  let detK := (K11 * K22 - K12 * K12)%C in
  let del := (RtoC 1 - rho1 * rho2 * detK - Ci * (rho1 * K11 + rho2 * K22))%C in
  (K12 / del)%C.
(** src/Lineshapes/FOCUS.cpp:18-47 *)
Definition FOCUS_pole : poleConfig := Pole (RtoC (17919 / 10000)) (fun i => match i with O => 31072 / 100000 | _ => - (2323 / 100000) end).
Definition FOCUS_K (s mK mPi : R) (i j : nat) : C :=
  let sNorm := mK * mK + mPi * mPi in
  let adler := (s - 23 / 100) / sNorm in
  let X := s / sNorm - 1 in
  let scattPart := match i, j with
                   | O, O => pol X (79299 / 100000 :: - (15099 / 100000) :: 811 / 100000 :: nil)
                   | S _, S _ => pol X (17054 / 100000 :: - (219 / 10000) :: 85655 / 100000000 :: nil)
                   | _, _ => pol X (15040 / 100000 :: - (38266 / 1000000) :: 22596 / 10000000 :: nil)
                   end in
  (RtoC adler * (constructKMatrix s (FOCUS_pole :: nil) i j + RtoC scattPart))%C.
Definition FOCUS_Kpi (s mK mPi mEtap : R) : C :=
  two_channel_Kpi (FOCUS_K s mK mPi 0 0) (FOCUS_K s mK mPi 0 1) (FOCUS_K s mK mPi 1 1) (phsp_FOCUS s mK mPi) (phsp_FOCUS s mK mEtap).
Definition FOCUS_KEta (s mK mPi mEtap : R) : C :=
  two_channel_KEta (FOCUS_K s mK mPi 0 0) (FOCUS_K s mK mPi 0 1) (FOCUS_K s mK mPi 1 1) (phsp_FOCUS s mK mPi) (phsp_FOCUS s mK mEtap).
(** src/Lineshapes/PALANO.cpp:20-54 *)
Definition PALANO_poles : list poleConfig :=
  Pole (RtoC (17991 / 10000)) (fun i => match i with O => 3139 / 10000 | _ => - (775 / 100000) end) ::
  Pole (RtoC (83627 / 10000)) (fun i => match i with O => 11804 / 10000 | _ => - (22335 / 100000) end) :: nil.
Definition PALANO_K (s mK mPi : R) (i j : nat) : C :=
  let sNorm := mK * mK + mPi * mPi in
  let adler := s / sNorm - 87753 / 100000 in
  let sTop := 5832 / 1000 in let sBot := 360 / 1000 in
  let X := (2 * s - sTop - sBot) / (sTop - sBot) in
  let scattPart := match i, j with
                   | O, O => pol X (- (1553 / 10000) :: 909 / 10000 :: 8618 / 10000 :: 629 / 10000 :: nil)
                   | S _, S _ => pol X (- (36 / 10000) :: 2590 / 10000 :: 16950 / 10000 :: 22300 / 10000 :: nil)
                   | _, _ => pol X (738 / 10000 :: 3866 / 10000 :: 12195 / 10000 :: 8390 / 10000 :: nil)
                   end in
  (RtoC adler * (constructKMatrix s PALANO_poles i j + RtoC scattPart))%C.
Definition PALANO_Kpi (s mK mPi mEtap : R) : C :=
  two_channel_Kpi (PALANO_K s mK mPi 0 0) (PALANO_K s mK mPi 0 1) (PALANO_K s mK mPi 1 1) (phsp_twoBody s mK mPi) (phsp_twoBody s mK mEtap).
Definition PALANO_KEta (s mK mPi mEtap : R) : C :=
  two_channel_KEta (PALANO_K s mK mPi 0 0) (PALANO_K s mK mPi 0 1) (PALANO_K s mK mPi 1 1) (phsp_twoBody s mK mPi) (phsp_twoBody s mK mEtap).
