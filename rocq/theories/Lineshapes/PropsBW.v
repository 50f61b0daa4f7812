From Verif.Common Require Import Prelude.
From Coq Require Import Reals Lra Psatz.
From Coquelicot Require Import Hierarchy Rbar Lim_seq Continuity Derive RInt Complex.
From Coq Require Import List.
From Verif.Lineshapes Require Import Model Spec BarrierProofs BWProofs ShapeProofs.
Local Open Scope R_scope.

(** ** C76 *)
(** The factor k makes the Breit-Wigner of fixed width a density in the mass: its modulus squared integrates to one. *)
Theorem C76_normalised : forall mass width, 0 < mass -> 0 < width ->
  is_lim (mass_integral (fun s => SBW s mass width) 0) p_infty 1.
Proof. exact sbw_normalised. Qed.
Print Assumptions C76_normalised.
(** The modulus squared of the nonrelativistic one is a Cauchy distribution of median [mass] and half width [width / 2]. *)
Theorem C76_cauchy : forall mass width a b, 0 < width -> 0 <= a -> a <= b ->
  mass_integral (fun s => NonRelBW s mass width) a b = (atan (2 * (b - mass) / width) - atan (2 * (a - mass) / width)) / PI.
Proof. exact nonrel_integral. Qed.
Print Assumptions C76_cauchy.
Example C76_cauchy_example : mass_integral (fun s => NonRelBW s 3 2) 2 4 = 1 / 2.
Proof.
  rewrite C76_cauchy by lra. replace (2 * (4 - 3) / 2) with 1 by lra. replace (2 * (2 - 3) / 2) with (-1) by lra. replace (-1) with (- (1)) by lra.
  rewrite atan_opp, atan_1. pose proof PI_RGT_0. field. lra.
Qed.

(** The propagator with a running width, relative to its coupling, scatters elastically. *)
Theorem C76_elastic : forall m s s1 s2 mass width0 radius L,
  let K := match m with BELLE2018 => 1 | _ => kFactor mass width0 end * FormFactor m s s1 s2 mass radius L in
  let g := mass * width s s1 s2 mass width0 radius L in
  K <> 0 -> s <> mass * mass \/ g <> 0 ->
  elastic 1 (RtoC (g / K) * BW m s s1 s2 mass width0 radius L)%C.
Proof.
  intros m s s1 s2 mass width0 radius L K g HK H. rewrite bw_form. change (strength m s s1 s2 mass width0 radius L) with K. rewrite rescale by assumption.
  apply elastic_den; [unfold g; ring|]. destruct H; [left; lra|now right].
Qed.
Print Assumptions C76_elastic.
(** At the mass every one of them is imaginary, with its modulus given by the width. *)
Theorem C76_peak : forall m s1 s2 mass width0 radius L, 0 < mass -> 0 < width0 -> 0 < Q2 (mass * mass) s1 s2 -> (L <= 4)%nat ->
  let K := match m with BELLE2018 => 1 | _ => kFactor mass width0 end * FormFactor m (mass * mass) s1 s2 mass radius L in
  BW m (mass * mass) s1 s2 mass width0 radius L = (0, K / (mass * width0)).
Proof.
  intros m s1 s2 mass width0 radius L M W Q HL K. rewrite bw_form. change (strength m (mass * mass) s1 s2 mass width0 radius L) with K.
  rewrite width_pole by assumption. assert (mass * width0 <> 0) by nra. rewrite over_den by now right. unfold Rminus. rewrite Rplus_opp_r. f_equal; field; lra.
Qed.
Print Assumptions C76_peak.
Theorem C76_phase : forall mass width, 0 < mass -> 0 < width -> phase_rises (fun s => SBW s mass width).
Proof.
  intros m w M W s s' Hs H. rewrite !sbw_pair by assumption. cbn [fst snd]. destruct (kFactor_sq m w M W) as [_ K]. assert (0 < m * w) by nra.
  assert (forall x, x * x + m * w * (m * w) <> 0) by (intro x; nra). rewrite !ratio_den by (auto; lra).
  apply Rmult_lt_compat_r; [now apply Rinv_0_lt_compat|lra].
Qed.
Print Assumptions C76_phase.
(** NonRelBW (src/Lineshapes/NonRelBW.cpp:18, AmpGen/Lineshapes.h:161) has sqrt(s) - m where the other shapes have m^2 - s: its phase falls from
    180 to 0 degrees through the resonance. Next to a relativistic amplitude the interference is the wrong way round; the modulus is right. *)
Theorem C76_phase_refuted : exists mass width, 0 < mass /\ 0 < width /\ ~ phase_rises (fun s => NonRelBW s mass width) /\
  (forall s s', 0 < s -> s < s' -> fst (NonRelBW s mass width) / snd (NonRelBW s mass width) < fst (NonRelBW s' mass width) / snd (NonRelBW s' mass width)).
Proof.
  exists 3, 2. split; [lra|]. split; [lra|].
  assert (A : forall s s', 0 < s -> s < s' -> fst (NonRelBW s 3 2) / snd (NonRelBW s 3 2) < fst (NonRelBW s' 3 2) / snd (NonRelBW s' 3 2)).
  { intros s s' Hs H. rewrite !nonrel_pair by lra. cbn [fst snd]. pose proof PI_RGT_0.
    assert (0 < sqrt (2 / 2 / PI)) by (apply sqrt_lt_R0; apply Rdiv_lt_0_compat; lra).
    assert (forall x, x * x + 2 / 2 * (2 / 2) <> 0) by (intro x; nra). rewrite !ratio_den by (auto; lra).
    pose proof (sqrt_lt_1_alt s s' ltac:(lra)). lra. }
  split; [|exact A]. intro R. specialize (A 1 2 ltac:(lra) ltac:(lra)). specialize (R 1 2 ltac:(lra) ltac:(lra)). cbn beta in R. lra.
Qed.
Print Assumptions C76_phase_refuted.
Example C76_bw_example : BW NFF (3 * 3) 1 1 3 (1 / 10) 2 1 = (0, kFactor 3 (1 / 10) / (3 * (1 / 10))) /\ 0 < kFactor 3 (1 / 10).
Proof.
  split; [|apply kFactor_sq; lra]. rewrite C76_peak by (lra || lia || (unfold Q2; lra)). cbn [FormFactor]. now rewrite Rmult_1_r.
Qed.

(** The running mass of Gounaris and Sakurai: the two conditions that define mass and width. *)
Theorem C76_gounaris : forall mpi mass width0, 0 < mpi -> 2 * mpi < mass ->
  gs_M2 mpi mass width0 (mass * mass) = mass * mass /\ is_derive (gs_M2 mpi mass width0) (mass * mass) 0.
Proof. intros mpi mass width0 P M. split; [now apply gs_at|now apply gs_flat]. Qed.
Print Assumptions C76_gounaris.
Theorem C76_gounaris_peak : forall mpi useRadius ff s1 s2 mass width0 radius L, 0 < mpi -> 2 * mpi < mass -> 0 < width0 ->
  0 < Q2 (mass * mass) s1 s2 -> (L <= 4)%nat ->
  exists K, GounarisSakurai mpi useRadius ff (mass * mass) s1 s2 mass width0 radius L = (0, K / (mass * width0)) /\ 0 <= K /\
  K = kFactor mass width0 * FormFactor (if ff then BLMod else Default) (mass * mass) s1 s2 mass radius L.
Proof.
  intros mpi ur ff s1 s2 mass width0 radius L P M W Q HL.
  exists (kFactor mass width0 * FormFactor (if ff then BLMod else Default) (mass * mass) s1 s2 mass radius L).
  split; [|split; [|reflexivity]].
  - unfold GounarisSakurai. rewrite gs_at by assumption. rewrite width_pole by (assumption || lra).
    replace (RtoC (mass * mass) - Ci * RtoC (mass * width0) - RtoC (mass * mass))%C with (den 0 (mass * width0)) by (unfold den; ring).
    assert (mass * width0 <> 0) by nra. rewrite over_den by now right. rewrite Rmult_0_r. destruct ff; cbn [FormFactor]; f_equal; field; lra.
  - apply Rmult_le_pos; [apply sqrt_pos|]. destruct ff; apply sqrt_pos.
Qed.
Print Assumptions C76_gounaris_peak.
Example C76_gounaris_example : gs_M2 (1 / 10) (8 / 10) (15 / 100) (8 / 10 * (8 / 10)) = 8 / 10 * (8 / 10).
Proof. apply C76_gounaris; lra. Qed.

(** The f0(980): absorption by the open channels only. Between the thresholds of pi pi and K K these are the two pions; above, kaons as well,
    whether or not the channel is cut. *)
Theorem C76_flatte : forall h cutKK g g_by_g mass s, 0 < mass -> 0 < s ->
  4 * mPi0 h * mPi0 h < s -> 4 * mPiPlus h * mPiPlus h < s ->
  let A := Flatte h (S_ "f(0)(980)0") cutKK g g_by_g mass s in
  let v m := if Rlt_dec (4 * m * m) s then sqrt (1 - 4 * m * m / s) else 0 in
  let G := g * (1 / 3 * v (mPi0 h) + 2 / 3 * v (mPiPlus h) + g_by_g * (1 / 2 * v (mK0 h) + 1 / 2 * v (mKPlus h))) in
  G <> 0 -> snd A = mass * G * abs2 A.
Proof.
  intros h cut g r mass s M Hs H0 H1 A v G HG. unfold A, Flatte. rewrite flatte_den.
  assert (V : forall m, fst (fSqrtTerm s m) = v m).
  { intro m. unfold v, fSqrtTerm. destruct (Rlt_dec (4 * m * m) s) as [O|O].
    - rewrite complex_sqrt_pos by now apply open_pair. reflexivity.
    - rewrite complex_sqrt_neg by (apply closed_pair; lra). reflexivity. }
  assert (W : fst (flatte_width h (S_ "f(0)(980)0") cut g r s) = G).
  { rewrite (flatte_f0 h cut g r s), fst_scal, !fst_add, !fst_scal, !V. unfold G. f_equal. f_equal. f_equal. destruct cut.
    - cbn [fst RtoC]. now rewrite !aSqrt_fst, !V.
    - now rewrite fst_add, !fst_scal, !V. }
  rewrite W. assert (mass * G <> 0) by nra. rewrite one_over by (right; lra). ring.
Qed.
Print Assumptions C76_flatte.
(** Flatte (src/Lineshapes/Flatte.cpp:29, 42) compares the name with f(0)(980)0 and a(0)(980)0 only. For any other particle, such as a(0)(980)+,
    there is no message and no width: the amplitude is real, with a pole on the physical axis. *)
Theorem C76_flatte_refuted : exists name, name = S_ "a(0)(980)+" /\ forall h cutKK g g_by_g mass s, s <> mass * mass ->
  Flatte h name cutKK g g_by_g mass s = RtoC (1 / (mass * mass - s)).
Proof.
  exists (S_ "a(0)(980)+"). split; [reflexivity|]. intros h cut g r mass s H. unfold Flatte. rewrite flatte_den.
  change (flatte_width h (S_ "a(0)(980)+") cut g r s) with (RtoC 0). unfold Cdiv, Cinv, Cmult, RtoC. cbn. f_equal; field; lra.
Qed.
Print Assumptions C76_flatte_refuted.
Example C76_flatte_example : let h := FlatteMasses (1 / 10) (1 / 10) (1 / 2) (1 / 2) (1 / 2) in let A := Flatte h (S_ "f(0)(980)0") false (1 / 10) 4 1 (8 / 10) in
  exists G, 0 < G /\ snd A = G * abs2 A.
Proof.
  intros h A. assert (V : 0 < sqrt (1 - 4 * (1 / 10) * (1 / 10) / (8 / 10))) by (apply sqrt_lt_R0; lra).
  pose proof (C76_flatte h false (1 / 10) 4 1 (8 / 10)) as T. cbn [mPi0 mPiPlus mK0 mKPlus h] in T. fold h in T.
  destruct (Rlt_dec (4 * (1 / 10) * (1 / 10)) (8 / 10)) as [_|N]; [|exfalso; lra]. destruct (Rlt_dec (4 * (1 / 2) * (1 / 2)) (8 / 10)) as [N|_]; [exfalso; lra|].
  eexists. split; [|apply T]; lra.
Qed.
