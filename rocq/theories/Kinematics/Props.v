(** C72: boosts, turns and decay angles. *)
From Verif.Common Require Import Prelude.
From Coq Require Import Reals Lra.
From Verif.Kinematics Require Import Model Spec Proofs.
Local Open Scope R_scope.

(** A boost moves every particle along n with the given velocity; entries that are no particles stay. *)
Theorem C72_boost evt n u v : direction n u -> v * v < 1 ->
  List.length (boost evt n v) = List.length evt /\
  (forall i p, particle evt i = Some p -> exists q, particle (boost evt n v) i = Some q /\ boosted u v p q) /\
  (forall i, particle evt i = None -> particle (boost evt n v) i = None).
Proof.
  intros D Hv. destruct (direction_unique n u D) as [N ->]. destruct (gam_ok v Hv) as [Gp G]. split; [apply each_length|]. split; intros i; [intros p P|intro P]; unfold boost; rewrite particle_each, P; [|reflexivity].
  exists (boost1 n v p). split; [reflexivity|]. rewrite boost1_push by exact N. apply push_boosted; [now apply dir_unit|exact Gp|exact G].
Qed.
Print Assumptions C72_boost.
(** A boost by -v undoes a boost by v. *)
Theorem C72_boost_back evt n v : ~ null n -> v * v < 1 -> boost (boost evt n v) n (- v) = evt.
Proof.
  intros N Hv. apply not_null in N. destruct (gam_ok v Hv) as [Gp G]. unfold boost. rewrite each_each. apply each_id. intro p. rewrite !boost1_push by exact N.
  assert (E : gam (- v) = gam v) by (unfold gam; replace (- v * - v) with (v * v) by ring; reflexivity). rewrite E. apply push_back; [now apply dir_unit|exact G].
Qed.
Print Assumptions C72_boost_back.

(** A turn keeps the energies and turns the momenta about n by the given angle, counter clockwise; lengths and angles between
    momenta are kept, and so is the handedness. *)
Theorem C72_rotate evt n u angle : direction n u ->
  List.length (rotate evt n angle) = List.length evt /\
  (forall i p, particle evt i = Some p -> exists q, particle (rotate evt n angle) i = Some q /\ en q = en p /\ turned u angle (vect p) (vect q)) /\
  (forall i, particle evt i = None -> particle (rotate evt n angle) i = None) /\
  (forall i j k p q r p' q' r', listed evt [i; j; k] [p; q; r] -> listed (rotate evt n angle) [i; j; k] [p'; q'; r'] ->
     dot3 (vect p') (vect q') = dot3 (vect p) (vect q) /\ dot3 (vect p') (cross (vect q') (vect r')) = dot3 (vect p) (cross (vect q) (vect r))).
Proof.
  intro D. destruct (direction_unique n u D) as [N ->]. pose proof (dir_unit n N) as U. split; [apply each_length|]. split; [|split].
  - intros i p P. unfold rotate. rewrite particle_each, P. exists (rotate1 n angle p). split; [reflexivity|]. rewrite rotate1_turn by exact N. split; [reflexivity|]. now apply turn1_turned.
  - intros i P. unfold rotate. now rewrite particle_each, P.
  - intros i j k p q r p' q' r' L L'. pose proof (listed_each (rotate1 n angle) _ _ _ L) as M. fold (rotate evt n angle) in M.
    inversion M as [|a1 b1 c1 d1 P1 M1]; subst. inversion M1 as [|a2 b2 c2 d2 P2 M2]; subst. inversion M2 as [|a3 b3 c3 d3 P3 M3]; subst.
    inversion L' as [|a4 b4 c4 d4 P4' M4]; subst. inversion M4 as [|a5 b5 c5 d5 P5 M5]; subst. inversion M5 as [|a6 b6 c6 d6 P6 M6]; subst.
    rewrite P1 in P4'. rewrite P2 in P5. rewrite P3 in P6. assert (p' = rotate1 n angle p) by congruence. assert (q' = rotate1 n angle q) by congruence. assert (r' = rotate1 n angle r) by congruence. subst.
    rewrite !rotate1_turn by exact N. cbn [vect]. rewrite turn1_cross, !turn1_dot by exact U. split; reflexivity.
Qed.
Print Assumptions C72_rotate.
(** Turns about the same axis add up. *)
Theorem C72_rotate_sum evt n a b : ~ null n -> rotate (rotate evt n a) n b = rotate evt n (a + b) /\ rotate evt n 0 = evt.
Proof.
  intro N. apply not_null in N. unfold rotate. rewrite each_each. split.
  - apply each_ext. intro p. rewrite !rotate1_turn by exact N. cbn [vect en]. f_equal. apply turn1_compose. now apply dir_unit.
  - apply each_id. intro p. rewrite rotate1_turn, turn1_zero by exact N. now destruct p.
Qed.
Print Assumptions C72_rotate_sum.

(** Neither changes an invariant mass: of any particles, as Event::s computes it. *)
Theorem C72_masses evt n v angle l ps : ~ null n -> v * v < 1 -> listed evt l ps ->
  s_of evt l = Ok (dot (total ps) (total ps)) /\ s_of (boost evt n v) l = s_of evt l /\ s_of (rotate evt n angle) l = s_of evt l.
Proof.
  intros N Hv L. apply not_null in N. destruct (gam_ok v Hv) as [Gp G]. pose proof (dir_unit n N) as U. unfold boost, rotate.
  rewrite (s_of_total _ _ _ L), (s_of_total _ _ _ (listed_each (boost1 n v) _ _ _ L)), (s_of_total _ _ _ (listed_each (rotate1 n angle) _ _ _ L)). split; [reflexivity|]. split; f_equal.
  - assert (E : total (map (boost1 n v) ps) = push (dir n) (gam v) v (total ps)). { rewrite push_total. f_equal. apply map_ext. intro p. now apply boost1_push. } rewrite E. now apply push_dot.
  - assert (E : total (map (rotate1 n angle) ps) = turn4 (dir n) angle (total ps)).
    { clear L. induction ps as [|p ps IH]; cbn; [apply p4_eq; cbn; [unfold turn1; v3|reflexivity]|]. rewrite turn4_add, IH, rotate1_turn by exact N. reflexivity. }
    rewrite E. unfold dot, turn4. cbn [vect en]. now rewrite turn1_dot.
Qed.
Print Assumptions C72_masses.

(** A sum of momenta that is slower than light has a frame in which it is at rest. *)
Theorem C72_rest p : dot3 (vect p) (vect p) < en p * en p -> 0 < en p -> exists n v, ~ null n /\ v * v < 1 /\ at_rest (boost1 n v p).
Proof. intros T E. destruct (rest_exists p T E) as (n & v & N & V & A). exists n, v. split; [now apply not_null|]. split; assumption. Qed.
Print Assumptions C72_rest.
(** The helicity cosine is the cosine of the angle between the two momenta in the rest frame of the reference. *)
Theorem C72_helicity evt i j r pi pj pr n v : listed evt i pi -> listed evt j pj -> listed evt r pr -> ~ null n -> v * v < 1 ->
  at_rest (boost1 n v (total pr)) -> dot (total pr) (total pr) <> 0 ->
  let a := vect (boost1 n v (total pi)) in let b := vect (boost1 n v (total pj)) in ~ null a -> ~ null b ->
  helicityCosine i j r evt = Ok (dot3 a b / (mag a * mag b)).
Proof. intros. apply (helicity_rest evt i j r pi pj pr n v); try assumption; now apply not_null. Qed.
Print Assumptions C72_helicity.
(** The momentum transfer is the momentum of either side in their common rest frame. *)
Theorem C72_transfer evt l1 l2 ps1 ps2 n v : listed evt l1 ps1 -> listed evt l2 ps2 -> ~ null n -> v * v < 1 ->
  at_rest (boost1 n v (add4 (total ps1) (total ps2))) -> dot (add4 (total ps1) (total ps2)) (add4 (total ps1) (total ps2)) <> 0 ->
  momentumTransfer l1 l2 evt = Ok (mag (vect (boost1 n v (total ps1)))) /\ momentumTransfer l1 l2 evt = Ok (mag (vect (boost1 n v (total ps2)))).
Proof.
  intros H1 H2 N Hv A D. apply not_null in N. destruct (transfer_rest evt l1 l2 ps1 ps2 n v H1 H2 N Hv A D) as [-> <-]. split; reflexivity.
Qed.
Print Assumptions C72_transfer.

(** The angle between the decay planes: in the rest frame of all four, turning the normal of the first plane about the
    direction of the second pair by phi gives the normal of the second plane. *)
Theorem C72_phi evt i j k l pA pB pC pD n v : listed evt [i; j; k; l] [pA; pB; pC; pD] -> ~ null n -> v * v < 1 ->
  let M := total [pA; pB; pC; pD] in at_rest (boost1 n v M) -> en M <> 0 ->
  let A := vect (boost1 n v pA) in let B := vect (boost1 n v pB) in let C := vect (boost1 n v pC) in let D := vect (boost1 n v pD) in
  ~ null (cross A B) -> ~ null (cross C D) ->
  exists f u m1 m2, phi evt i j k l = Ok f /\ - PI < f <= PI /\ direction (add3 C D) u /\ direction (cross A B) m1 /\ direction (cross C D) m2 /\ turned u f m1 m2.
Proof.
  intros L N Hv M Rst E A B C D N1 N2. apply not_null in N, N1, N2. destruct (phi_rest evt i j k l pA pB pC pD n v L N Hv Rst E N1 N2) as (f & P & Rg & NP & T & _).
  exists f, (dir (add3 C D)), (dir (cross A B)), (dir (cross C D)). repeat (split; [first [assumption|now apply dir_direction]|]). exact T.
Qed.
Print Assumptions C72_phi.
(** Turning the event does not change it. *)
Theorem C72_phi_rotate evt n angle i j k l : ~ null n -> phi (rotate evt n angle) i j k l = phi evt i j k l.
Proof. intro N. apply phi_turn. now apply not_null. Qed.
Print Assumptions C72_phi_rotate.
(** The acoplanarity of the first two and the last two particles is the angle between the planes without its sign. *)
Theorem C72_acoplanarity evt pA pB pC pD n v : listed evt [0; 1; 2; 3]%nat [pA; pB; pC; pD] -> ~ null n -> v * v < 1 ->
  let M := total [pA; pB; pC; pD] in at_rest (boost1 n v M) -> en M <> 0 ->
  let A := vect (boost1 n v pA) in let B := vect (boost1 n v pB) in let C := vect (boost1 n v pC) in let D := vect (boost1 n v pD) in
  ~ null (cross A B) -> ~ null (cross C D) ->
  exists f, phi evt 0 1 2 3 = Ok f /\ acoplanarity evt = Ok (Rabs f).
Proof.
  intros L N Hv M Rst E A B C D N1 N2. apply not_null in N, N1, N2. destruct (phi_rest evt 0 1 2 3 pA pB pC pD n v L N Hv Rst E N1 N2) as (f & P & Rg & NP & T & K).
  exists f. split; [exact P|]. rewrite (acoplanarity_rest evt pA pB pC pD n v L N Hv Rst E N1 N2). f_equal. etransitivity; [exact (f_equal acos (eq_sym K))|]. rewrite <- cos_abs. apply acos_cos. split; [apply Rabs_pos|]. apply Rabs_le. lra.
Qed.
Print Assumptions C72_acoplanarity.

(** Coordinates with respect to axes at right angles keep energies, lengths and angles. *)
Theorem C72_basis evt p1 p2 p3 i j p q p' q' : ~ null p1 -> ~ null p2 -> ~ null p3 -> dot3 p1 p2 = 0 -> dot3 p1 p3 = 0 -> dot3 p2 p3 = 0 ->
  listed evt [i; j] [p; q] -> listed (rotateBasis evt p1 p2 p3) [i; j] [p'; q'] ->
  en p' = en p /\ dot3 (vect p') (vect q') = dot3 (vect p) (vect q) /\ vx (vect p') * mag p1 = dot3 p1 (vect p) /\ vy (vect p') * mag p2 = dot3 p2 (vect p) /\ vz (vect p') * mag p3 = dot3 p3 (vect p).
Proof.
  intros N1 N2 N3 O12 O13 O23 L L'. apply not_null in N1, N2, N3. pose proof (listed_each (rotateBasis1 p1 p2 p3) _ _ _ L) as M. fold (rotateBasis evt p1 p2 p3) in M.
  inversion M as [|a1 b1 c1 d1 P1 M1]; subst. inversion M1 as [|a2 b2 c2 d2 P2 M2]; subst. inversion L' as [|a4 b4 c4 d4 P4' M4]; subst. inversion M4 as [|a5 b5 c5 d5 P5 M5]; subst.
  rewrite P1 in P4'. rewrite P2 in P5. assert (p' = rotateBasis1 p1 p2 p3 p) by congruence. assert (q' = rotateBasis1 p1 p2 p3 q) by congruence. subst. split; [reflexivity|]. split; [now apply basis_dot|].
  pose proof (mag_pos _ N1). pose proof (mag_pos _ N2). pose proof (mag_pos _ N3). unfold rotateBasis1. cbn [vect vx vy vz]. repeat split; field; lra.
Qed.
Print Assumptions C72_basis.

(** Examples: four massless particles, at rest together. *)
Definition decay : list R := [1; 1; 0; 2; -1; 1; 0; 2; 0; -1; 1; 2; 0; -1; -1; 2; 7]%R.
Definition dA := P4 (V3 1 1 0) 2. Definition dB := P4 (V3 (-1) 1 0) 2. Definition dC := P4 (V3 0 (-1) 1) 2. Definition dD := P4 (V3 0 (-1) (-1)) 2.
Example C72_example_particles : listed decay [0; 1; 2; 3]%nat [dA; dB; dC; dD] /\ particle decay 4 = None.
Proof. split; [repeat constructor|reflexivity]. Qed.
Example C72_example_direction : direction (V3 3 0 4) (V3 (3 / 5) 0 (4 / 5)) /\ ~ null (V3 3 0 4) /\ (3 / 5) * (3 / 5) < 1.
Proof. split; [split; [unfold dot3; cbn; lra|]|split; [intro H; injection H; intros; lra|lra]]. exists 5. split; [lra|]. apply v3_eq; cbn; lra. Qed.
Example C72_example_boost : boost decay (V3 0 0 1) 0 = decay.
Proof.
  unfold boost. apply each_id. intro p. rewrite boost1_push by (unfold dot3; cbn; lra). assert (G : gam 0 = 1) by (unfold gam; rewrite Rmult_0_l, Rminus_0_r, sqrt_1; field). rewrite G. unfold push. apply p4_eq; cbn [vect en]; [v3|ring].
Qed.
Example C72_example_rest : at_rest (boost1 (V3 0 0 1) 0 (total [dA; dB; dC; dD])) /\ en (total [dA; dB; dC; dD]) = 8.
Proof.
  split; [|cbn; ring]. unfold at_rest. rewrite boost1_push by (unfold dot3; cbn; lra). unfold push, total, add4, dA, dB, dC, dD. cbn [vect en]. v3.
Qed.
Example C72_example_planes : ~ null (cross (vect dA) (vect dB)) /\ ~ null (cross (vect dC) (vect dD)) /\ dot (total [dA; dB; dC; dD]) (total [dA; dB; dC; dD]) <> 0.
Proof.
  split; [|split].
  - apply not_null. unfold cross, dot3, dA, dB. cbn. lra.
  - apply not_null. unfold cross, dot3, dC, dD. cbn. lra.
  - unfold dot, dot3, total, add4, add3, dA, dB, dC, dD. cbn. lra.
Qed.
Example C72_example_moving : at_rest (boost1 (V3 0 0 (-1)) (3 / 5) (P4 (V3 0 0 3) 5)).
Proof.
  unfold at_rest. rewrite boost1_push by (unfold dot3; cbn; lra). unfold push, dir. cbn [vect en]. replace (dot3 (V3 0 0 (-1)) (V3 0 0 (-1))) with 1 by (unfold dot3; cbn; ring). rewrite sqrt_1. 
  assert (G : gam (3 / 5) = 5 / 4). { unfold gam. replace (1 - 3 / 5 * (3 / 5)) with ((4 / 5) * (4 / 5)) by field. rewrite sqrt_square by lra. field. } rewrite G. apply v3_eq; unfold add3, scale, dot3; cbn [vx vy vz]; field.
Qed.
Example C72_example_basis : dot3 (V3 1 1 0) (V3 1 (-1) 0) = 0 /\ dot3 (V3 1 1 0) (V3 0 0 2) = 0 /\ dot3 (V3 1 (-1) 0) (V3 0 0 2) = 0.
Proof. unfold dot3. cbn. repeat split; ring. Qed.
