From Coq Require Import Reals Lra.
From Coquelicot Require Import Coquelicot.
From Verif.Common Require Import Prelude.
From Verif.Kinematics Require Import Model.
From Verif.Dalitz Require Import Model Spec Proofs.
Local Open Scope R_scope.

(** Every point of the square gives three momenta with the masses of the products, energies that are not negative, and the total mass of the mother. *)
Theorem C93_event d x y : open d -> let e := setEvent d x y in
  mass2 (pA e) = m_s1 d /\ mass2 (pB e) = m_s2 d /\ mass2 (pC e) = m_s3 d /\ 0 <= en (pA e) /\ 0 <= en (pB e) /\ 0 <= en (pC e) /\ sABC e = m_s0 d.
Proof. intro H. destruct (event_masses d x y H) as (A & B & C & D & E & F & _ & G). cbv zeta. repeat split; assumption. Qed.
Print Assumptions C93_event.
(** Squared masses 1, 4, 9 and 64. *)
Definition d8 : plot := {| m_s0 := 64; m_s1 := 1; m_s2 := 4; m_s3 := 9 |}.
Lemma sq (x y : R) : 0 <= y -> y * y = x -> sqrt x = y.
Proof. intros P <-. now apply sqrt_square. Qed.
Example C93_event_ex : open d8 /\ m_min d8 = 3 /\ m_max d8 = 5 /\ m_min d8 < m_max d8.
Proof.
  assert (A : sqrt 1 = 1) by (apply sq; lra). assert (B : sqrt 4 = 2) by (apply sq; lra). assert (C : sqrt 9 = 3) by (apply sq; lra). assert (D : sqrt 64 = 8) by (apply sq; lra). unfold open, m_min, m_max, max_at, d8. cbn [m_s0 m_s1 m_s2 m_s3]. rewrite A, B, C, D. lra.
Qed.

(** The coordinates of the event of a point are that point, and every mass of AB with every angle between A and C is reached: the square is the
    whole Dalitz plot. *)
Theorem C93_coordinates d x y : open d -> m_min d < m_max d -> in_unit x -> in_unit y ->
  sqDp1 d (setEvent d x y) = Ok x /\ (0 < x < 1 -> sqDp2 (setEvent d x y) = Ok y).
Proof. intros H L X Y. split; [now apply first_coordinate|]. intro I. now apply second_coordinate. Qed.
Print Assumptions C93_coordinates.
Example C93_coordinates_ex : sqDp1 d8 (setEvent d8 (1/3) (1/4)) = Ok (1/3) /\ sqDp2 (setEvent d8 (1/3) (1/4)) = Ok (1/4).
Proof.
  destruct C93_event_ex as (O & _ & _ & L). assert (in_unit (1/3)) by (unfold in_unit; lra). assert (in_unit (1/4)) by (unfold in_unit; lra). destruct (C93_coordinates d8 (1/3) (1/4)) as [A B]; try assumption. split; [exact A|apply B; lra].
Qed.
Theorem C93_all_reached d m c : open d -> m_min d < m_max d -> m_min d <= m <= m_max d -> -1 <= c <= 1 ->
  exists x y, in_unit x /\ in_unit y /\ sAB (setEvent d x y) = m * m /\ cos (PI * y) = c /\
    dot3 (vect (pA (setEvent d x y))) (vect (pC (setEvent d x y))) = c * (mag (vect (pA (setEvent d x y))) * mag (vect (pC (setEvent d x y)))).
Proof.
  intros H L M C. destruct (reach d m c L M C) as (x & y & X & Y & E & F). exists x, y. split; [exact X|]. split; [exact Y|]. split; [|split; [exact F|]].
  - destruct (event_masses d x y H) as (_ & _ & _ & _ & _ & _ & G & _). rewrite G, E. reflexivity.
  - unfold setEvent, event_of, dot3, mag, dot3. cbn [pA pC vect vx vy vz]. set (pc := safe_sqrt (_ - _)). set (pa := safe_sqrt _). assert (Pa : 0 <= pa) by apply safe_pos. assert (Pc : 0 <= pc) by apply safe_pos.
    replace (0 * 0 + 0 * 0 + pa * pa) with (pa * pa) by ring. rewrite sqrt_square by exact Pa.
    replace (0 * 0 + pc * sin (PI * y) * (pc * sin (PI * y)) + pc * cos (PI * y) * (pc * cos (PI * y))) with (pc * pc) by (pose proof (sincos (PI * y)); nra). rewrite sqrt_square by exact Pc. rewrite F. ring.
Qed.
Print Assumptions C93_all_reached.
Example C93_all_reached_ex : open d8 /\ m_min d8 < m_max d8 /\ m_min d8 <= 4 <= m_max d8.
Proof. destruct C93_event_ex as (O & A & B & L). rewrite A, B in *. repeat split; try assumption; try lra; apply O. Qed.

(** J is the ratio of the areas: the modulus of the determinant of the derivatives of the squared masses of AB and AC. *)
Theorem C93_jacobian d x y : open d -> in_unit x -> in_unit y -> exists a b c,
  is_derive (fun x => sAB (setEvent d x y)) x a /\ is_derive (fun y => sAB (setEvent d x y)) y b /\ is_derive (fun y => sAC (setEvent d x y)) y c /\
  (forall e, Rabs (a * c - b * e) = J d x y) /\ 0 <= J d x y.
Proof.
  intros H X Y. eexists _, 0, _. split; [now apply deriv_sAB|]. split; [now apply deriv_sAB_y|]. split; [now apply deriv_sAC|]. split; [|now apply J_pos]. intro e.
  rewrite <- (Rabs_pos_eq (J d x y)) by (now apply J_pos). rewrite <- Rabs_Ropp. f_equal. unfold J. ring.
Qed.
Print Assumptions C93_jacobian.
Example C93_jacobian_ex : open d8 /\ 0 < J d8 (1/2) (1/2).
Proof.
  destruct C93_event_ex as (O & A & B & L). split; [exact O|]. unfold J, deriv1, deriv2. fold (m_max d8). rewrite A, B. assert (M : getMAB d8 (1/2) = 4).
  { unfold getMAB, getMAB_at. fold (m_max d8). rewrite A, B. replace (PI * (1/2)) with (PI / 2) by lra. rewrite cos_PI2. lra. }
  rewrite M. replace (PI * (1/2)) with (PI / 2) by lra. rewrite sin_PI2. pose proof PI_RGT_0. unfold arg_A, e_C, safe_sqrt, d8. cbn [m_s0 m_s1 m_s2 m_s3].
  destruct (Rlt_dec 0 _) as [P|N]; [|destruct N; lra]. destruct (Rlt_dec 0 _) as [Q|N]; [|destruct N; lra]. apply sqrt_lt_R0 in P. apply sqrt_lt_R0 in Q. set (p := PI) in *. clearbody p. repeat apply Rmult_lt_0_compat; lra.
Qed.

(** What integrateDP integrates with the mass it was set up with: the function of the event times the ratio of the areas, over the squared mass. *)
Theorem C93_integrand d f x y : open d -> integrand d f (m_s0 d) x y = Ok (J d x y * f (setEvent d x y) / m_s0 d).
Proof. intro H. unfold integrand. destruct (at_member d x y H) as [-> ->]. reflexivity. Qed.
Print Assumptions C93_integrand.
Example C93_integrand_ex : integrand d8 (fun e => en (pA e)) 64 (1/2) (1/2) = Ok (J d8 (1/2) (1/2) * en (pA (setEvent d8 (1/2) (1/2))) / 64).
Proof. apply (C93_integrand d8). apply C93_event_ex. Qed.

(** integrateDP( fcn, s ) with another mass than that set by setMother: the energy of C is calculated from the member, so the events do not have the squared mass s
    (src/DalitzIntegrator.cpp:119, 144). *)
Theorem C93_other_mass_refuted : exists d s x y e, open d /\ open (setMother d s) /\ setEvent_at d s x y = Ok e /\ sABC e <> s.
Proof.
  set (d := {| m_s0 := 81; m_s1 := 1; m_s2 := 4; m_s3 := 9 |}). assert (A : sqrt 1 = 1) by (apply sq; lra). assert (B : sqrt 4 = 2) by (apply sq; lra). assert (C : sqrt 9 = 3) by (apply sq; lra). assert (D : sqrt 64 = 8) by (apply sq; lra). assert (E : sqrt 81 = 9) by (apply sq; lra).
  assert (O : open d) by (unfold open, d; cbn [m_s0 m_s1 m_s2 m_s3]; rewrite A, B, C, E; lra).
  assert (M : getMAB_at d 64 (1/2) = 4). { unfold getMAB_at, m_min, max_at, d. cbn [m_s0 m_s1 m_s2 m_s3]. rewrite A, B, C, D. replace (PI * (1/2)) with (PI / 2) by lra. rewrite cos_PI2. lra. }
  assert (R1 : m_min d <= 4) by (unfold m_min, d; cbn [m_s1 m_s2]; rewrite A, B; lra). destruct (energies d 4 O R1) as [EA EB]. pose proof (arg_A_pos d 4 O R1) as PA. cbv zeta in EA, EB.
  assert (PC : 0 <= e_C d 4 * e_C d 4 - m_s3 d) by (unfold e_C, d; cbn [m_s0 m_s3]; lra).
  exists d, 64, (1/2), (1/2). eexists. split; [exact O|]. split; [unfold open, setMother, d; cbn [m_s0 m_s1 m_s2 m_s3]; rewrite A, B, C, D; lra|]. unfold setEvent_at. rewrite M. unfold SQRT. destruct (Rle_dec 0 (arg_A d 4)); [|contradiction]. cbn [bind].
  destruct (Rle_dec 0 (e_C d 4 * e_C d 4 - m_s3 d)); [|contradiction]. cbn [bind]. split; [reflexivity|]. rewrite safe_eq in EA, EB by exact PA. unfold event_of, sABC, mass2, dot, add4, add3, dot3. cbn [pA pB pC vect en vx vy vz]. rewrite EA, EB.
  set (pc := sqrt (e_C d 4 * e_C d 4 - m_s3 d)). assert (P2 : pc * pc = e_C d 4 * e_C d 4 - m_s3 d) by (now apply sqrt_def). pose proof (sincos (PI * (1/2))) as SC. intro F. unfold e_C, d in *. cbn [m_s0 m_s1 m_s2 m_s3] in *. nra.
Qed.
Print Assumptions C93_other_mass_refuted.
