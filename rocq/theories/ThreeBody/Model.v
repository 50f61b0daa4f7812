(** Widths of three-body decays: src/ThreeBodyCalculators.cpp. Real numbers for double; [None] is a number that is not finite. *)
From Coq Require Import Reals List String Decimal DecimalString Arith.
From Coquelicot Require Import Complex.
From Verif.Common Require Import Prelude.
Import ListNotations.
Local Open Scope R_scope.

(** src/Tensor.cpp:64-70: one factor per coordinate, 1 for the coordinate 3 (time) and -1 for the others. *)
Definition metricSgn (co : list nat) : R := fold_left (fun prod c => prod * (if Nat.eqb c 3 then 1 else -1)) co 1.
(** The coordinates of the elements of a tensor with [r] indices of four values, in the order of src/Tensor.cpp:113-125. *)
Fixpoint coords (r : nat) : list (list nat) := match r with O => [[]] | S r => flat_map (fun c => map (cons c) (coords r)) [0; 1; 2; 3]%nat end.
(** A tensor: the value of its element at given coordinates. *)
Definition tensor := list nat -> C.
(** src/Tensor.cpp:242-259 for tensors of the same rank: from the last element to the first. *)
Definition dot (r : nat) (A B : tensor) : C :=
  fold_left (fun result co => (result + RtoC (metricSgn co) * A co * B co)%C) (rev (coords r)) (RtoC 0).
Definition conjugate (A : tensor) : tensor := fun co => Cconj (A co).
(** src/ThreeBodyCalculators.cpp:162-165: all pairs of currents. *)
Definition pairs (r : nat) (currents : list tensor) : C :=
  fold_left (fun total a => fold_left (fun total b => (total + dot r a (conjugate b))%C) currents total) currents (RtoC 0).
(** src/ThreeBodyCalculators.cpp:167: std::pow(-1, twoSpin/2.); a power of a negative number that is not whole is not a number. *)
Definition sign (twoSpin : nat) : option R := if Nat.even twoSpin then Some ((-1) ^ (Nat.div2 twoSpin)) else None.
(** src/ThreeBodyCalculators.cpp:138-168: with the rank of the currents. The making of the currents is C80, C81. *)
Definition spinAverage (twoSpin r : nat) (currents : list tensor) : option C :=
  match sign twoSpin with Some x => Some (RtoC x * pairs r currents)%C | None => None end.

(** AmpGen/ThreeBodyCalculators.h:16-25: spin of the head, and the integral over the Dalitz plot (DalitzIntegrator, not modelled) of the
    matrix element without its sign. *)
Record partialWidth := { twoSpin : nat; integral : R -> option R }.
(** src/ThreeBodyCalculators.cpp:132-136: the integral of what is not a number is not a number. *)
Definition getPartial (w : partialWidth) (s : R) : option R :=
  match sign (twoSpin w), integral w s with Some x, Some y => Some (x * y) | _, _ => None end.
(** src/ThreeBodyCalculators.cpp:257-266 *)
Definition getWidth (ws : list partialWidth) (s : R) : R :=
  fold_left (fun G w => match getPartial w s with Some wp => G + wp | None => G end) ws 0.
Definition over (x y : R) : option R := if Req_EM_T y 0 then None else Some (x / y).

(** m_min, m_step, m_nKnots; a step that is not set: [None]. *)
Record axis := { m_min : R; m_step : option (option R); m_nKnots : nat }.
(** src/ThreeBodyCalculators.cpp:194-200. For no knots m_nKnots-1 is 2^64-1; the step is not used then. *)
Definition setAxis (nKnots : nat) (min max : R) : axis :=
  {| m_min := min; m_step := Some (match nKnots with O => Some 0 | S n => over (max - min) (INR n) end); m_nKnots := nKnots |}.
(** src/ThreeBodyCalculators.cpp:170-192 *)
Definition construct (nKnots : nat) (min max : R) : axis :=
  if Nat.eqb nKnots 999 then {| m_min := min; m_step := None; m_nKnots := nKnots |} else setAxis nKnots min max.

(** The parameters: name and mean (C12). *)
Definition params := list (str * option R).
Fixpoint find (n : str) (ps : params) : option (option R) := match ps with [] => None | (k, v) :: r => if str_eqb n k then Some v else find n r end.
Fixpoint setCurrentFitVal (n : str) (v : option R) (ps : params) : params :=
  match ps with [] => [] | (k, u) :: r => if str_eqb n k then (k, v) :: r else (k, u) :: setCurrentFitVal n v r end.
Definition to_string (c : nat) : str := list_ascii_of_string (NilEmpty.string_of_uint (Nat.to_uint c)).
(** src/ThreeBodyCalculators.cpp:213 *)
Definition knotName (head : str) (c : nat) : str := head ++ S_ "::Spline::Gamma::" ++ to_string c.
(** src/ThreeBodyCalculators.cpp:210-214: a step that is not finite makes s, and with it the width, not a number; the sum of the widths is
    then empty, and the knot 0 over the norm. *)
Definition knot (ws : list partialWidth) (norm : R) (min : R) (step : option R) (c : nat) : option R :=
  match step with Some h => over (getWidth ws (min + INR c * h)) norm | None => over 0 norm end.
(** src/ThreeBodyCalculators.cpp:202-219. A parameter for the mass that does not exist: an end iterator is dereferenced (C16). *)
Definition updateRunningWidth (head : str) (ws : list partialWidth) (a : axis) (ps : params) (mNorm : R) : res params :=
  bind (if Req_EM_T mNorm 0 then of_opt (find (head ++ S_ "_mass") ps) else Ok (Some mNorm)) (fun m =>
  let norm := match m with Some m => getWidth ws (m * m) | None => 0 end in
  match m_nKnots a, m_step a with
  | O, _ => Ok ps
  | _, None => UB
  | n, Some h =>
      Ok (fold_left (fun ps c => match find (knotName head c) ps with
                                 | Some _ => setCurrentFitVal (knotName head c) (knot ws norm (m_min a) h c) ps
                                 | None => ps
                                 end) (seq 0 n) ps)
  end).

(** src/ThreeBodyCalculators.cpp:88-97: the points of the graph. With one step its width is not finite, and nor is the point. *)
Definition widthGraph (ws : list partialWidth) (a : axis) (steps : nat) (min max : R) : list (option (R * R)) :=
  map (fun c => match over (max - min) (INR (steps - 1)) with
                | Some st => let s := m_min a + INR c * st in Some (s, getWidth ws s)
                | None => None
                end) (seq 0 steps).
(** src/ThreeBodyCalculators.cpp:46-55 *)
Definition dispersive (fcn : R -> R) (s min max : R) : R := 0.
(** src/ThreeBodyCalculators.cpp:57-86: the points of the graph, with the width of the head at its mass over that calculated ([width0]). *)
Definition runningMass (ws : list partialWidth) (width0 mass min max : R) (nSteps nSubtractions : nat) : list (R * R) :=
  let s0 := mass * mass in
  let fSubtracted x := width0 * getWidth ws x / x ^ nSubtractions in
  let integral_term s := dispersive fSubtracted s min 1000 * mass * s ^ nSubtractions / PI in
  let g1 := integral_term (s0 - /1000) in
  let g2 := integral_term (s0 + /1000) in
  let A1 := if Nat.eqb nSubtractions 1 then 0 else (g2 - g1) / (2 * /1000) in
  let A0 := if Nat.eqb nSubtractions 0 then 0 else s0 - A1 * s0 + integral_term s0 in
  map (fun ind => let s := min + (max - min) * INR ind / INR nSteps in (s, A0 + A1 * s - integral_term s)) (seq 0 nSteps).
