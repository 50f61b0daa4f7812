(** Kinematic functions: src/Kinematics.cpp. Real numbers instead of doubles. *)
From Verif.Common Require Import Prelude.
From Coq Require Import Reals.
From Verif.Events Require Model.
Local Open Scope R_scope.

(** ROOT's TLorentzVector and TVector3, as far as they are used. *)
Record v3 := V3 { vx : R; vy : R; vz : R }.
Record p4 := P4 { vect : v3; en : R }.
Definition dot3 (a b : v3) : R := vx a * vx b + vy a * vy b + vz a * vz b.
Definition cross (a b : v3) : v3 := V3 (vy a * vz b - vy b * vz a) (vz a * vx b - vz b * vx a) (vx a * vy b - vx b * vy a).
Definition add3 (a b : v3) : v3 := V3 (vx a + vx b) (vy a + vy b) (vz a + vz b).
Definition scale (c : R) (a : v3) : v3 := V3 (c * vx a) (c * vy a) (c * vz a).
Definition mag (a : v3) : R := sqrt (dot3 a a).
(** TVector3::Unit: the zero vector stays. *)
Definition unit (a : v3) : v3 := if Rlt_dec 0 (dot3 a a) then scale (1 / mag a) a else a.
Definition dot (p q : p4) : R := en p * en q - dot3 (vect p) (vect q).
Definition add4 (p q : p4) : p4 := P4 (add3 (vect p) (vect q)) (en p + en q).
(** TLorentzVector::BoostVector and Boost, for a velocity below one. *)
Definition boostVector (p : p4) : v3 := scale (/ en p) (vect p).
Definition boostBy (b : v3) (p : p4) : p4 :=
  let b2 := dot3 b b in
  let gamma := 1 / sqrt (1 - b2) in
  let bp := dot3 b (vect p) in
  let gamma2 := if Rlt_dec 0 b2 then (gamma - 1) / b2 else 0 in
  P4 (V3 (vx (vect p) + gamma2 * bp * vx b + gamma * vx b * en p)
         (vy (vect p) + gamma2 * bp * vy b + gamma * vy b * en p)
         (vz (vect p) + gamma2 * bp * vz b + gamma * vz b * en p))
     (gamma * (en p + bp)).

(** An event: four numbers for every particle, and more behind (AmpGen/Event.h). Reading beyond the end is undefined. *)
Definition pFromEvent1 (evt : list R) (i : nat) : res p4 :=
  bind (Events.Model.block R evt i) (fun '(x, y, z, e) => Ok (P4 (V3 x y z) e)).
(** src/Kinematics.cpp:60-71 *)
Fixpoint pFromEvent_from (evt : list R) (ref : list nat) (acc : p4) : res p4 :=
  match ref with [] => Ok acc | r :: t => bind (pFromEvent1 evt r) (fun p => pFromEvent_from evt t (add4 acc p)) end.
Definition pFromEvent (evt : list R) (ref : list nat) : res p4 := pFromEvent_from evt ref (P4 (V3 0 0 0) 0).

(** src/Kinematics.cpp:89-92. Dividing by zero: [Throw] stands for a result that is not a number. *)
Definition dotProduct (p1 p2 pX : p4) : res R :=
  if Req_EM_T (dot pX pX) 0 then Throw else Ok (- dot p1 p2 + dot p1 pX * dot p2 pX / dot pX pX).
(** src/Kinematics.cpp:46-53 *)
Definition helicityCosine (i j pR : list nat) (evt : list R) : res R :=
  bind (pFromEvent evt pR) (fun PR => bind (pFromEvent evt i) (fun pi => bind (pFromEvent evt j) (fun pj =>
  bind (dotProduct pi pj PR) (fun ij => bind (dotProduct pi pi PR) (fun ii => bind (dotProduct pj pj PR) (fun jj =>
  if Rlt_dec 0 (ii * jj) then Ok (ij / sqrt (ii * jj)) else Throw)))))).

(** src/Kinematics.cpp:14-31 *)
Definition Q2 (s s1 s2 : R) : R := s / 4 - (s1 + s2) / 2 + (s1 - s2) * (s1 - s2) / (4 * s).
Definition s_of (evt : list R) (indices : list nat) : res R := Events.Model.s_all R 0 Rplus Rminus Rmult evt indices.
Definition momentumTransfer (p1 p2 : list nat) (evt : list R) : res R :=
  bind (s_of evt (p1 ++ p2)) (fun s0 => bind (s_of evt p1) (fun s1 => bind (s_of evt p2) (fun s2 =>
  if Req_EM_T s0 0 then Throw else if Rle_dec 0 (Q2 s0 s1 s2) then Ok (sqrt (Q2 s0 s1 s2)) else Throw))).

(** The loops over the particles of an event: src/Kinematics.cpp:157-163, 172-180, 186-194. The last entries, if they are not
    four, are left alone. *)
Fixpoint each (f : p4 -> p4) (evt : list R) : list R :=
  match evt with
  | x :: y :: z :: e :: r => let p := f (P4 (V3 x y z) e) in vx (vect p) :: vy (vect p) :: vz (vect p) :: en p :: each f r
  | _ => evt
  end.
(** src/Kinematics.cpp:151-164 *)
Definition boost1 (n : v3) (v : R) (p : p4) : p4 :=
  let gamma := 1 / sqrt (1 - v * v) in
  let norm := sqrt (vx n * vx n + vy n * vy n + vz n * vz n) in
  let nv := vx (vect p) * vx n + vy (vect p) * vy n + vz (vect p) * vz n in
  P4 (V3 (vx (vect p) + ((gamma - 1) * nv / norm + gamma * en p * v) * vx n / norm)
         (vy (vect p) + ((gamma - 1) * nv / norm + gamma * en p * v) * vy n / norm)
         (vz (vect p) + ((gamma - 1) * nv / norm + gamma * en p * v) * vz n / norm))
     (gamma * (en p + v * nv / norm)).
Definition boost (evt : list R) (n : v3) (v : R) : list R := each (boost1 n v) evt.
(** src/Kinematics.cpp:166-181 *)
Definition rotate1 (n : v3) (v : R) (p : p4) : p4 :=
  let cv := cos v in let sv := sin v in
  let norm := sqrt (vx n * vx n + vy n * vy n + vz n * vz n) in
  let ix := vx (vect p) in let iy := vy (vect p) in let iz := vz (vect p) in
  let k := (1 - cv) * (ix * vx n + iy * vy n + iz * vz n) in
  P4 (V3 (cv * ix + sv * (iz * vy n - iy * vz n) / norm + k * vx n / (norm * norm))
         (cv * iy + sv * (ix * vz n - iz * vx n) / norm + k * vy n / (norm * norm))
         (cv * iz + sv * (iy * vx n - ix * vy n) / norm + k * vz n / (norm * norm)))
     (en p).
Definition rotate (evt : list R) (n : v3) (v : R) : list R := each (rotate1 n v) evt.
(** src/Kinematics.cpp:183-195 *)
Definition rotateBasis1 (p1 p2 p3 : v3) (p : p4) : p4 :=
  P4 (V3 (dot3 p1 (vect p) / mag p1) (dot3 p2 (vect p) / mag p2) (dot3 p3 (vect p) / mag p3)) (en p).
Definition rotateBasis (evt : list R) (p1 p2 p3 : v3) : list R := each (rotateBasis1 p1 p2 p3) evt.

(** TMath::ATan2 *)
Definition atan2 (y x : R) : R :=
  if Rlt_dec 0 x then atan (y / x)
  else if Rlt_dec x 0 then (if Rle_dec 0 y then atan (y / x) + PI else atan (y / x) - PI)
  else if Rlt_dec 0 y then PI / 2 else if Rlt_dec y 0 then - (PI / 2) else 0.
(** src/Kinematics.cpp:94-117, 119-149. A vanishing denominator: not a number. *)
Definition phi_of (pA pB pC pD : p4) : res R :=
  let pM := add4 (add4 (add4 pA pB) pC) pD in
  let b := scale (-1) (boostVector pM) in
  let A := vect (boostBy b pA) in let B := vect (boostBy b pB) in let C := vect (boostBy b pC) in let D := vect (boostBy b pD) in
  let n1 := unit (cross A B) in let n2 := unit (cross C D) in
  let cosPhi := dot3 n1 n2 in
  let d := mag (cross D (unit (add3 A B))) in
  if Req_EM_T d 0 then Throw else Ok (atan2 (dot3 D n1 / d) cosPhi).
Definition phi (evt : list R) (i j k w : nat) : res R :=
  bind (pFromEvent1 evt i) (fun pA => bind (pFromEvent1 evt j) (fun pB => bind (pFromEvent1 evt k) (fun pC => bind (pFromEvent1 evt w) (fun pD => phi_of pA pB pC pD)))).
Definition PHI (evt : list R) : res R := phi evt 0 1 3 2.
(** src/Kinematics.cpp:73-87 *)
Definition acoplanarity (evt : list R) : res R :=
  bind (pFromEvent1 evt 0) (fun p0 => bind (pFromEvent1 evt 1) (fun p1 => bind (pFromEvent1 evt 2) (fun p2 => bind (pFromEvent1 evt 3) (fun p3 =>
  let pD := add4 (add4 (add4 p0 p1) p2) p3 in
  let b := scale (-1) (boostVector pD) in
  let t1 := unit (cross (vect (boostBy b p0)) (vect (boostBy b p1))) in
  let t2 := unit (cross (vect (boostBy b p2)) (vect (boostBy b p3))) in
  Ok (acos (dot3 t1 t2)))))).
