(** Boosts, turns and angles, without reference to the code. *)
From Coq Require Import Reals List.
From Verif.Kinematics Require Import Model.
Import ListNotations.
Local Open Scope R_scope.

(** The particles of an event *)
Definition particle (evt : list R) (i : nat) : option p4 :=
  match skipn (4 * i) evt with x :: y :: z :: e :: _ => Some (P4 (V3 x y z) e) | _ => None end.
(** The direction of n *)
Definition direction (n u : v3) : Prop := dot3 u u = 1 /\ exists c, 0 < c /\ n = scale c u.
Definition across (u a : v3) : v3 := add3 a (scale (- dot3 u a) u).
(** p moved along u with velocity v *)
Definition boosted (u : v3) (v : R) (p q : p4) : Prop :=
  exists g, 0 < g /\ g * g * (1 - v * v) = 1 /\ en q = g * (en p + v * dot3 u (vect p)) /\
    dot3 u (vect q) = g * (dot3 u (vect p) + v * en p) /\ across u (vect q) = across u (vect p).
(** a turned by an angle about u: the part along u stays, the part across u is turned *)
Definition turned (u : v3) (angle : R) (a b : v3) : Prop :=
  dot3 u b = dot3 u a /\ dot3 (across u a) (across u b) = cos angle * dot3 (across u a) (across u a) /\
  cross (across u a) (across u b) = scale (sin angle * dot3 (across u a) (across u a)) u.
Definition at_rest (p : p4) : Prop := vect p = V3 0 0 0.
(** The sum of momenta *)
Fixpoint total (ps : list p4) : p4 := match ps with [] => P4 (V3 0 0 0) 0 | p :: r => add4 p (total r) end.
(** The particles at the given places *)
Definition listed (evt : list R) (l : list nat) (ps : list p4) : Prop := Forall2 (fun i p => particle evt i = Some p) l ps.
Definition null (a : v3) : Prop := a = V3 0 0 0.
