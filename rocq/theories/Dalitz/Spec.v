From Coq Require Import Reals.
From Verif.Kinematics Require Import Model.
From Verif.Dalitz Require Import Model.
Local Open Scope R_scope.

(** A decay to three particles that is possible: squared masses, and the mother at least as heavy as the products, of which A and B are not both massless. *)
Definition open (d : plot) : Prop :=
  0 <= m_s1 d /\ 0 <= m_s2 d /\ 0 <= m_s3 d /\ 0 <= m_s0 d /\ 0 < sqrt (m_s1 d) + sqrt (m_s2 d) /\ sqrt (m_s1 d) + sqrt (m_s2 d) + sqrt (m_s3 d) <= sqrt (m_s0 d).
Definition in_unit (x : R) : Prop := 0 <= x <= 1.
Definition mass2 (p : p4) : R := dot p p.
(** The squared masses of pairs *)
Definition sAB (e : event) : R := mass2 (add4 (pA e) (pB e)).
Definition sAC (e : event) : R := mass2 (add4 (pA e) (pC e)).
Definition sABC (e : event) : R := mass2 (add4 (add4 (pA e) (pB e)) (pC e)).
