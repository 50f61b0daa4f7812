(** The square Dalitz plot: src/DalitzIntegrator.cpp, AmpGen/DalitzIntegrator.h (the scalar variant). Real numbers for double; [Throw] is a
    result that is not a number. An event is three momenta; the entries that setEvent does not write (x of all, y of the first two) are zero, as they are where it
    is used. *)
From Coq Require Import Reals.
From Verif.Common Require Import Prelude.
From Verif.Kinematics Require Import Model.
Local Open Scope R_scope.

(** m_s0, m_s1, m_s2, m_s3; m_min and m_max always follow them (src/DalitzIntegrator.cpp:33-38, 42-48, 85-91). *)
Record plot := { m_s0 : R; m_s1 : R; m_s2 : R; m_s3 : R }.
Definition setMother (d : plot) (s : R) : plot := {| m_s0 := s; m_s1 := m_s1 d; m_s2 := m_s2 d; m_s3 := m_s3 d |}.
Definition m_min (d : plot) : R := sqrt (m_s1 d) + sqrt (m_s2 d).
Definition max_at (d : plot) (s : R) : R := sqrt s - sqrt (m_s3 d).
Definition m_max (d : plot) : R := max_at d (m_s0 d).
(** AmpGen/DalitzIntegrator.h:46-52 *)
Definition safe_sqrt (x : R) : R := if Rlt_dec 0 x then sqrt x else 0.
Definition SQRT (x : R) : res R := if Rle_dec 0 x then Ok (sqrt x) else Throw.
Record event := Event { pA : p4; pB : p4; pC : p4 }.
(** src/DalitzIntegrator.cpp:93-96, 130-136 *)
Definition getMAB_at (d : plot) (s x : R) : R := m_min d + (max_at d s - m_min d) * (cos (PI * x) + 1) / 2.
Definition getMAB (d : plot) (x : R) : R := getMAB_at d (m_s0 d) x.
Definition arg_A (d : plot) (m : R) : R := m * m / 4 - (m_s1 d + m_s2 d) / 2 + (m_s1 d - m_s2 d) * (m_s1 d - m_s2 d) / (4 * m * m).
(** eC takes the squared mass of the mother from the member, in both variants *)
Definition e_C (d : plot) (m : R) : R := (m_s0 d - m_s3 d - m * m) / (2 * m).
Definition event_of (pa ea eb pc ec y : R) : event :=
  Event (P4 (V3 0 0 pa) ea) (P4 (V3 0 0 (- pa)) eb) (P4 (V3 0 (pc * sin (PI * y)) (pc * cos (PI * y))) ec).
(** src/DalitzIntegrator.cpp:69-84, for a mass of AB that is not zero *)
Definition setEvent (d : plot) (x y : R) : event :=
  let m := getMAB d x in
  let pa := safe_sqrt (arg_A d m) in
  let ec := e_C d m in
  event_of pa (sqrt (pa * pa + m_s1 d)) (sqrt (pa * pa + m_s2 d)) (safe_sqrt (ec * ec - m_s3 d)) ec y.
(** src/DalitzIntegrator.cpp:138-153 *)
Definition setEvent_at (d : plot) (s x y : R) : res event :=
  let m := getMAB_at d s x in
  bind (SQRT (arg_A d m)) (fun pa =>
  let ec := e_C d m in
  bind (SQRT (ec * ec - m_s3 d)) (fun pc =>
  Ok (event_of pa (sqrt (pa * pa + m_s1 d)) (sqrt (pa * pa + m_s2 d)) pc ec y))).
(** src/DalitzIntegrator.cpp:98-111 *)
Definition deriv1 (d : plot) (s x : R) : R := PI / 2 * (max_at d s - m_min d) * sin (PI * x).
Definition deriv2 (y : R) : R := PI * sin (PI * y).
Definition J (d : plot) (x y : R) : R :=
  let m := getMAB d x in
  let ec := e_C d m in
  4 * deriv1 d (m_s0 d) x * deriv2 y * safe_sqrt (arg_A d m) * safe_sqrt (ec * ec - m_s3 d) * m.
(** src/DalitzIntegrator.cpp:113-128 *)
Definition J_at (d : plot) (s x y : R) : res R :=
  let m := getMAB_at d s x in
  bind (SQRT (arg_A d m)) (fun pa =>
  let ec := e_C d m in
  Ok (4 * deriv1 d s x * deriv2 y * pa * safe_sqrt (ec * ec - m_s3 d) * m)).
(** AmpGen/DalitzIntegrator.h:83-98: what is integrated over the square *)
Definition integrand (d : plot) (f : event -> R) (s x y : R) : res R :=
  bind (setEvent_at d s x y) (fun e => bind (J_at d s x y) (fun j => Ok (j * f e / s))).

(** src/DalitzIntegrator.cpp:49-61; TLorentzVector::Mag of a squared mass that is not negative *)
Definition sqDp1 (d : plot) (e : event) : res R :=
  let p := add4 (pA e) (pB e) in
  bind (SQRT (dot p p)) (fun m =>
  if Req_EM_T (m_max d - m_min d) 0 then Throw
  else let arg := 2 * (m - m_min d) / (m_max d - m_min d) - 1 in
       if Rlt_dec 1 arg then Ok (-1) else if Rlt_dec arg (-1) then Ok (-1) else Ok (acos arg / PI)).
(** src/DalitzIntegrator.cpp:62-68 *)
Definition sqDp2 (e : event) : res R :=
  let p := add4 (pA e) (pB e) in
  bind (dotProduct (pA e) (pC e) p) (fun ac => bind (dotProduct (pA e) (pA e) p) (fun aa => bind (dotProduct (pC e) (pC e) p) (fun cc =>
  if Rlt_dec 0 (aa * cc) then Ok (acos (ac / sqrt (aa * cc)) / PI) else Throw))).
