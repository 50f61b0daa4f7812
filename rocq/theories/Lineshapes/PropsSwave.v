(** C78: the shapes of S waves. *)
From Verif.Common Require Import Prelude.
From Coq Require Import Reals Lra Psatz Field.
From Coquelicot Require Import Hierarchy Complex.
From Coq Require Import List.
From Verif.Lineshapes Require Import Model Spec BarrierProofs BWProofs ShapeProofs KProofs.
Local Open Scope R_scope.

Lemma RtoC_nz a : a <> 0 -> RtoC a <> RtoC 0. Proof. intros N E. apply N. now injection E. Qed.
Lemma cis_add a b : cis (a + b) = (cis a * cis b)%C.
Proof. unfold cis, Cmult. cbn. rewrite cos_plus, sin_plus. f_equal; ring. Qed.
Lemma cis_0 : cis 0 = RtoC 1. Proof. unfold cis. now rewrite cos_0, sin_0. Qed.
Lemma abs2_cis a : abs2 (cis a) = 1. Proof. unfold abs2, cis. cbn. pose proof (sin2_cos2 a). unfold Rsqr in *. lra. Qed.
Lemma cis_half a : (cis (2 * a) - RtoC 1)%C = (RtoC 2 * Ci * RtoC (sin a) * cis a)%C.
Proof.
  replace (2 * a) with (a + a) by ring. rewrite cis_add. unfold cis, Cminus, Cplus, Copp, Cmult, Ci, RtoC. cbn. pose proof (sin2_cos2 a) as H. unfold Rsqr in H.
  f_equal; [|ring]. transitivity (cos a * cos a - sin a * sin a - (sin a * sin a + cos a * cos a)); [rewrite H; ring|ring].
Qed.
(** the polar form of x - i y *)
Lemma polar x y : x <> 0 -> exists N, N <> 0 /\ x = N * cos (atan (y / x)) /\ y = N * sin (atan (y / x)).
Proof.
  intro H. pose proof (atan_bound (y / x)) as B. assert (C : 0 < cos (atan (y / x))) by (apply cos_gt_0; lra).
  exists (x / cos (atan (y / x))). split; [|split].
  - unfold Rdiv. apply Rmult_integral_contrapositive_currified; [assumption|]. apply Rinv_neq_0_compat. lra.
  - field. lra.
  - assert (T : tan (atan (y / x)) = y / x) by apply tan_atan. unfold tan in T.
    replace (x / cos (atan (y / x)) * sin (atan (y / x))) with (x * (sin (atan (y / x)) / cos (atan (y / x)))) by (field; lra). rewrite T. field. assumption.
Qed.
Lemma polar_den N d : N <> 0 -> (RtoC 1 / den (N * cos d) (N * sin d))%C = (RtoC (/ N) * cis d)%C.
Proof.
  intro H. pose proof (sin2_cos2 d) as T. unfold Rsqr in T.
  assert (Nz : N * cos d <> 0 \/ N * sin d <> 0).
  { destruct (Req_dec (cos d) 0) as [C|C]; [right|left]; apply Rmult_integral_contrapositive_currified; try assumption. intro S. rewrite C, S in T. lra. }
  rewrite over_den by assumption. replace (N * cos d * (N * cos d) + N * sin d * (N * sin d)) with (N * N * (sin d * sin d + cos d * cos d)) by ring. rewrite T.
  unfold cis, RtoC, Cmult. cbn. f_equal; field; assumption.
Qed.
Lemma over_one g x y : (RtoC g / den x y)%C = (RtoC g * (RtoC 1 / den x y))%C. Proof. unfold Cdiv. ring. Qed.
Lemma den_phase rho g x y : x <> 0 -> rho <> 0 -> rho * g = y -> (RtoC g / den x y)%C = (RtoC (sin (atan (y / x)) / rho) * cis (atan (y / x)))%C.
Proof.
  intros Hx Hr E. destruct (polar x y Hx) as (N & HN & Ex & Ey). rewrite over_one. set (d := atan (y / x)) in *. rewrite Ex, Ey at 1. rewrite polar_den by assumption.
  rewrite Cmult_assoc, <- RtoC_mult. f_equal. f_equal. assert (g = y / rho) by (rewrite <- E; field; assumption). rewrite H, Ey. field. split; assumption.
Qed.
Lemma shift_phase x y : x <> 0 -> ((RtoC x + Ci * RtoC y) / den x y)%C = cis (2 * atan (y / x)).
Proof.
  intro Hx. destruct (polar x y Hx) as (N & HN & Ex & Ey). set (d := atan (y / x)) in *.
  replace ((RtoC x + Ci * RtoC y) / den x y)%C with ((RtoC x + Ci * RtoC y) * (RtoC 1 / den x y))%C by (unfold Cdiv; ring).
  rewrite Ex, Ey at 1. rewrite Ex, Ey, polar_den by assumption.
  replace (RtoC (N * cos d) + Ci * RtoC (N * sin d))%C with (RtoC N * cis d)%C by (unfold cis, Ci, RtoC, Cmult, Cplus; cbn; f_equal; ring).
  replace (2 * d) with (d + d) by ring. rewrite cis_add. replace (RtoC (/ N)) with (/ RtoC N)%C by (symmetry; now apply RtoC_inv).
  field. now apply RtoC_nz.
Qed.

(** ** LASS *)
Section Lass.
  Variables s s1 s2 mass width0 a r : R.
  Hypothesis S : 0 < s.
  Hypothesis M : 0 < mass.
  Hypothesis Q : 0 < Q2 s s1 s2.
  Hypothesis Q0 : 0 < Q2 (mass * mass) s1 s2.
  Let q := sqrt (Q2 s s1 s2).
  Let rho := q / sqrt s.
  Let rho0 := sqrt (Q2 (mass * mass) s1 s2) / mass.
  Let xb := mass * mass - s.
  Let gb := mass * width0 / rho0.
  Let yb := mass * (width0 * rho / rho0).
  Let xn := 2 + a * r * Q2 s s1 s2.
  Let yn := 2 * a * q.
  Let gn := 2 * a * sqrt s.
  Lemma q_pos : 0 < q. Proof. now apply sqrt_lt_R0. Qed.
  Lemma rho_pos : 0 < rho. Proof. apply Rdiv_lt_0_compat; [apply q_pos|now apply sqrt_lt_R0]. Qed.
  Lemma rho0_pos : 0 < rho0. Proof. apply Rdiv_lt_0_compat; [now apply sqrt_lt_R0|assumption]. Qed.
  Lemma bw_width : rho * gb = yb. Proof. unfold gb, yb. field. apply Rgt_not_eq, rho0_pos. Qed.
  Lemma nr_width : rho * gn = yn. Proof. unfold rho, gn, yn. field. apply Rgt_not_eq, sqrt_lt_R0, S. Qed.
  Lemma safe_q : safe_sqrt (Q2 s s1 s2) = q. Proof. unfold safe_sqrt, q. destruct (Rlt_dec 0 (Q2 s s1 s2)); [reflexivity|contradiction]. Qed.
  Lemma bw_den : s <> mass * mass \/ width0 <> 0 -> xb <> 0 \/ yb <> 0.
  Proof.
    intros [H|H]; [left; unfold xb; lra|right]. pose proof rho_pos. pose proof rho0_pos. unfold yb, Rdiv.
    apply Rmult_integral_contrapositive_currified; [lra|]. apply Rmult_integral_contrapositive_currified; [|apply Rinv_neq_0_compat; lra].
    apply Rmult_integral_contrapositive_currified; lra.
  Qed.
  Lemma lass_bw_den : s <> mass * mass \/ width0 <> 0 -> lass_bw (LASS_parts s s1 s2 mass width0 a r) = (RtoC gb / den xb yb)%C.
  Proof.
    intro H. cbn [LASS_parts lass_bw]. rewrite safe_q. fold rho rho0 xb. change (mass * (width0 * rho / rho0)) with yb. fold (den xb yb). unfold gb. rewrite RtoC_div by (pose proof rho0_pos; lra).
    pose proof (den_neq xb yb (bw_den H)) as N. assert (RtoC rho0 <> RtoC 0) by (apply RtoC_nz; pose proof rho0_pos; lra). field. split; assumption.
  Qed.
  Lemma lass_nr_den : lass_nr (LASS_parts s s1 s2 mass width0 a r) = (RtoC gn / den xn yn)%C.
  Proof.
    cbn [LASS_parts lass_nr]. rewrite safe_q. fold gn. unfold Cdiv. f_equal. f_equal. unfold den. f_equal.
    - f_equal. unfold xn. f_equal. rewrite Rmult_assoc. f_equal. unfold q. apply sqrt_sqrt. lra.
    - unfold yn. rewrite !RtoC_mult. ring.
  Qed.
  Lemma lass_shift_den : lass_shift (LASS_parts s s1 s2 mass width0 a r) = ((RtoC xn + Ci * RtoC yn) / den xn yn)%C.
  Proof. cbn [LASS_parts lass_shift]. rewrite safe_q. reflexivity. Qed.
  Lemma nr_den : a <> 0 \/ xn <> 0 -> xn <> 0 \/ yn <> 0.
  Proof. intros [H|H]; [right|now left]. unfold yn. pose proof q_pos. repeat apply Rmult_integral_contrapositive_currified; lra. Qed.
  (** the shift of the resonance is the S matrix of the background *)
  Lemma shift_S : xn <> 0 \/ yn <> 0 -> lass_shift (LASS_parts s s1 s2 mass width0 a r) = smatrix rho (LASS LassNR s s1 s2 mass width0 a r).
  Proof.
    intro H. unfold LASS. rewrite lass_nr_den, lass_shift_den. unfold smatrix. pose proof (den_neq xn yn H) as N.
    replace (RtoC xn + Ci * RtoC yn)%C with (den xn yn + RtoC 2 * Ci * RtoC yn)%C by (unfold den; replace (RtoC 2) with (RtoC 1 + RtoC 1)%C by (rewrite <- RtoC_plus; f_equal; ring); ring).
    set (D := den xn yn) in *. clearbody D. rewrite <- nr_width, RtoC_mult. field. assumption.
  Qed.
  Lemma lass_product : xn <> 0 \/ yn <> 0 ->
    smatrix rho (LASS LassTotal s s1 s2 mass width0 a r) = (smatrix rho (LASS LassNR s s1 s2 mass width0 a r) * smatrix rho (lass_bw (LASS_parts s s1 s2 mass width0 a r)))%C.
  Proof.
    intro H. unfold LASS at 1. rewrite shift_S by assumption. change (lass_nr (LASS_parts s s1 s2 mass width0 a r)) with (LASS LassNR s s1 s2 mass width0 a r).
    unfold smatrix. ring.
  Qed.
  Lemma lass_polar : s <> mass * mass -> xn <> 0 -> LASS LassTotal s s1 s2 mass width0 a r =
    (RtoC (sin (atan (yn / xn) + atan (yb / xb)) / rho) * cis (atan (yn / xn) + atan (yb / xb)))%C.
  Proof.
    intros H Hn. pose proof rho_pos as P. assert (Hb : xb <> 0) by (unfold xb; lra).
    unfold LASS. rewrite lass_bw_den by (now left). rewrite lass_nr_den, lass_shift_den. rewrite shift_phase by assumption.
    rewrite (den_phase rho gb xb yb), (den_phase rho gn xn yn) by (try assumption; try lra; [apply bw_width || apply nr_width..]).
    set (u := atan (yn / xn)). set (v := atan (yb / xb)). clearbody u v.
    assert (N : (RtoC 2 * Ci * RtoC rho)%C <> RtoC 0).
    { repeat apply Cmult_neq_0; try (apply RtoC_nz; lra). intro E. injection E. lra. }
    assert (R : forall w, (RtoC (sin w / rho) * cis w)%C = ((cis (2 * w) - RtoC 1) / (RtoC 2 * Ci * RtoC rho))%C).
    { intro w. rewrite cis_half, RtoC_div by lra. assert (RtoC rho <> RtoC 0) by (apply RtoC_nz; lra). assert (Ci <> RtoC 0) by (intro E; injection E; lra).
      assert (RtoC 2 <> RtoC 0) by (apply RtoC_nz; lra). field. repeat split; assumption. }
    rewrite !R. replace (2 * (u + v)) with (2 * u + 2 * v) by ring. rewrite cis_add. unfold Cdiv. ring.
  Qed.
End Lass.

(** The LASS amplitude scatters elastically; its S matrix is the one of the background times the one of the resonance. *)
Theorem C78_lass : forall s s1 s2 mass width0 a r, 0 < s -> 0 < mass -> 0 < Q2 s s1 s2 -> 0 < Q2 (mass * mass) s1 s2 ->
  s <> mass * mass \/ width0 <> 0 -> a <> 0 \/ 2 + a * r * Q2 s s1 s2 <> 0 ->
  let rho := sqrt (Q2 s s1 s2) / sqrt s in
  elastic rho (LASS LassTotal s s1 s2 mass width0 a r) /\ elastic rho (LASS LassNR s s1 s2 mass width0 a r) /\
  exists B, elastic rho B /\ smatrix rho (LASS LassTotal s s1 s2 mass width0 a r) = (smatrix rho (LASS LassNR s s1 s2 mass width0 a r) * smatrix rho B)%C.
Proof.
  intros s s1 s2 mass width0 a r S M Q Q0 HB HN rho.
  pose proof (nr_den s s1 s2 a r Q HN) as DN. pose proof (bw_den s s1 s2 mass width0 S M Q Q0 HB) as DB.
  assert (EN : elastic rho (LASS LassNR s s1 s2 mass width0 a r)).
  { unfold LASS. rewrite (lass_nr_den s s1 s2 mass width0 a r Q). apply elastic_den; [now apply nr_width|assumption]. }
  assert (EB : elastic rho (lass_bw (LASS_parts s s1 s2 mass width0 a r))).
  { rewrite (lass_bw_den s s1 s2 mass width0 a r S M Q Q0 HB). apply elastic_den; [now apply bw_width|assumption]. }
  pose proof (lass_product s s1 s2 mass width0 a r S Q DN) as PR. fold rho in PR.
  split; [|split; [exact EN|eexists; split; [exact EB|exact PR]]]. unfold elastic in *. rewrite PR, abs2_mult, EN, EB. ring.
Qed.
Print Assumptions C78_lass.
(** It is sin(delta) e^(i delta) / rho with the sum of the two phases. *)
Theorem C78_lass_phase : forall s s1 s2 mass width0 a r, 0 < s -> 0 < mass -> 0 < Q2 s s1 s2 -> 0 < Q2 (mass * mass) s1 s2 ->
  s <> mass * mass -> 2 + a * r * Q2 s s1 s2 <> 0 ->
  let q := sqrt (Q2 s s1 s2) in let q0 := sqrt (Q2 (mass * mass) s1 s2) in
  let width := width0 * (q / sqrt s) / (q0 / mass) in
  let delta := atan (2 * a * q / (2 + a * r * Q2 s s1 s2)) + atan (mass * width / (mass * mass - s)) in
  LASS LassTotal s s1 s2 mass width0 a r = (sin delta / (q / sqrt s) * cos delta, sin delta / (q / sqrt s) * sin delta).
Proof.
  intros s s1 s2 mass width0 a r S M Q Q0 HB HN q q0 width delta. rewrite lass_polar by assumption. fold q q0 width delta.
  unfold cis, RtoC, Cmult. cbn. f_equal; ring.
Qed.
Print Assumptions C78_lass_phase.
Example C78_lass_example : elastic (sqrt (Q2 9 1 1) / sqrt 9) (LASS LassTotal 9 1 1 4 1 2 3).
Proof. apply (C78_lass 9 1 1 4 1 2 3); try lra; unfold Q2; try lra; left; lra. Qed.

(** ** GLASS *)
Section Glass.
  Variables s s1 s2 mass width0 a r phiR phiF R_ F_ : R.
  Hypothesis S : 0 < s.
  Hypothesis M : 0 < mass.
  Hypothesis Q : 0 < Q2 s s1 s2.
  Hypothesis Q0 : 0 < Q2 (mass * mass) s1 s2.
  Hypothesis HB : s <> mass * mass.
  Hypothesis HN : 2 + a * r * Q2 s s1 s2 <> 0.
  Let q := sqrt (Q2 s s1 s2).
  Let rho := q / sqrt s.
  Let q0 := sqrt (Q2 (mass * mass) s1 s2).
  Let width := width0 * rho / (q0 / mass).
  Let dB := atan (mass * width / (mass * mass - s)).
  Let dN := atan (2 * a * q / (2 + a * r * Q2 s s1 s2)).
  Lemma glass_form : GLASS s s1 s2 mass width0 a r phiR phiF R_ F_ =
    (RtoC (/ rho) * (RtoC (R_ * sin dB) * cis (dB + phiR + 2 * (phiF + dN)) + RtoC (F_ * sin (phiF + dN)) * cis (phiF + dN)))%C.
  Proof.
    pose proof (q_pos s s1 s2 Q) as Pq. pose proof (sqrt_lt_R0 s S) as Ps. pose proof (rho_pos s s1 s2 S Q) as Pr. fold q in Pq, Pr. fold rho in Pr.
    assert (P0 : 0 < q0) by (now apply sqrt_lt_R0).
    unfold GLASS. cbv zeta. rewrite safe_q by assumption. fold q q0.
    assert (W : width0 * mass * sqrt (Q2 s s1 s2 / (Q2 (mass * mass) s1 s2 * s)) = width).
    { rewrite sqrt_div by nra. rewrite sqrt_mult by lra. fold q q0. unfold width, rho. field. repeat split; lra. }
    rewrite W. fold (den (mass * mass - s) (mass * width)).
    assert (B : (RtoC (mass * mass * width0) / (RtoC q0 * den (mass * mass - s) (mass * width)))%C = (RtoC (sin dB / rho) * cis dB)%C).
    { unfold dB. rewrite <- (den_phase rho (mass * width0 / (q0 / mass)) (mass * mass - s) (mass * width)); [| lra| lra|unfold width; field; lra].
      replace (RtoC (mass * width0 / (q0 / mass))) with (RtoC (mass * mass * width0) / RtoC q0)%C by (rewrite <- RtoC_div by lra; f_equal; field; lra).
      assert (den (mass * mass - s) (mass * width) <> RtoC 0) by (apply den_neq; left; lra). assert (RtoC q0 <> RtoC 0) by (apply RtoC_nz; lra). field. split; assumption. }
    rewrite B. fold (den (1 + / 2 * r * a * Q2 s s1 s2) (a * q)).
    assert (X : 1 + / 2 * r * a * Q2 s s1 s2 = (2 + a * r * Q2 s s1 s2) / 2) by field. 
    assert (Xn : 1 + / 2 * r * a * Q2 s s1 s2 <> 0) by (rewrite X; lra).
    assert (D : a * q / (1 + / 2 * r * a * Q2 s s1 s2) = 2 * a * q / (2 + a * r * Q2 s s1 s2)) by (rewrite X; field; assumption).
    destruct (polar _ (a * q) Xn) as (N & Nz & Ex & Ey). rewrite D in Ex, Ey. fold dN in Ex, Ey. rewrite Ex, Ey.
    set (RB := (RtoC (sin dB / rho) * cis dB)%C). 
    replace (RtoC (N * cos dN) + Ci * RtoC (N * sin dN))%C with (RtoC N * cis dN)%C by (unfold cis, Ci, RtoC, Cmult, Cplus; cbn; f_equal; ring).
    assert (V : forall z, (z / den (N * cos dN) (N * sin dN))%C = (z * (RtoC (/ N) * cis dN))%C) by (intro z; rewrite <- polar_den by assumption; unfold Cdiv; ring).
    rewrite V.
    replace ((N * sin dN * cos phiF + N * cos dN * sin phiF) * sqrt s / q) with (N * (sin (phiF + dN) / rho)) by (rewrite sin_plus; unfold rho; field; lra).
    unfold RB. replace (dB + phiR + 2 * (phiF + dN)) with (dB + ((phiR + 2 * phiF) + (dN + dN))) by ring.
    rewrite (cis_add dB), (cis_add (phiR + 2 * phiF)), (cis_add dN dN), (cis_add phiF dN).
    unfold Rdiv. rewrite !RtoC_mult. replace (RtoC (/ N)) with (/ RtoC N)%C by (symmetry; now apply RtoC_inv). assert (RtoC N <> RtoC 0) by (now apply RtoC_nz). field. assumption.
  Qed.
End Glass.

Lemma polar_cis m p : polar_form m p = (RtoC m * cis p)%C. Proof. unfold polar_form, cis, RtoC, Cmult. cbn. f_equal; ring. Qed.
(** What the code computes: the resonant phase turns the resonance only. *)
Theorem C78_glass : forall s s1 s2 mass width0 a r phiR phiF R_ F_, 0 < s -> 0 < mass -> 0 < Q2 s s1 s2 -> 0 < Q2 (mass * mass) s1 s2 ->
  s <> mass * mass -> 2 + a * r * Q2 s s1 s2 <> 0 ->
  let q := sqrt (Q2 s s1 s2) in let q0 := sqrt (Q2 (mass * mass) s1 s2) in
  let width := width0 * (q / sqrt s) / (q0 / mass) in
  let deltaR := atan (mass * width / (mass * mass - s)) in
  let deltaF := phiF + atan (2 * a * q / (2 + a * r * Q2 s s1 s2)) in
  (RtoC (q / sqrt s) * GLASS s s1 s2 mass width0 a r phiR phiF R_ F_)%C = (polar_form (R_ * sin deltaR) (phiR + deltaR + 2 * deltaF) + polar_form (F_ * sin deltaF) deltaF)%C.
Proof.
  intros s s1 s2 mass width0 a r phiR phiF R_ F_ S M Q Q0 HB HN q q0 width deltaR deltaF. rewrite glass_form by assumption. fold q q0. fold width deltaR. 
  pose proof (rho_pos s s1 s2 S Q) as P. fold q in P. rewrite Cmult_assoc, <- RtoC_mult, Rinv_r, Cmult_1_l by lra. rewrite !polar_cis. fold deltaF.
  now rewrite (Rplus_comm deltaR phiR).
Qed.
Print Assumptions C78_glass.
(** Without such a phase it is the documented shape, and with unit couplings the LASS one. *)
Theorem C78_glass_partial : forall s s1 s2 mass width0 a r phiF R_ F_, 0 < s -> 0 < mass -> 0 < Q2 s s1 s2 -> 0 < Q2 (mass * mass) s1 s2 ->
  s <> mass * mass -> 2 + a * r * Q2 s s1 s2 <> 0 ->
  let q := sqrt (Q2 s s1 s2) in let q0 := sqrt (Q2 (mass * mass) s1 s2) in
  let width := width0 * (q / sqrt s) / (q0 / mass) in
  (RtoC (q / sqrt s) * GLASS s s1 s2 mass width0 a r 0 phiF R_ F_)%C =
    glass_documented R_ F_ (0 + atan (mass * width / (mass * mass - s))) (phiF + atan (2 * a * q / (2 + a * r * Q2 s s1 s2))) /\
  GLASS s s1 s2 mass width0 a r 0 0 1 1 = LASS LassTotal s s1 s2 mass width0 a r.
Proof.
  intros s s1 s2 mass width0 a r phiF R_ F_ S M Q Q0 HB HN q q0 width. split.
  - subst q q0 width. rewrite C78_glass by assumption. unfold glass_documented. now rewrite !Rplus_0_l.
  - rewrite glass_form, lass_polar by assumption. set (u := atan _). set (v := atan _).
    pose proof (rho_pos s s1 s2 S Q) as P. set (rho := sqrt (Q2 s s1 s2) / sqrt s) in *.
    assert (Ci <> RtoC 0) by (intro E; injection E; lra). assert (RtoC 2 <> RtoC 0) by (apply RtoC_nz; lra).
    assert (H' : forall w, (RtoC (1 * sin w) * cis w)%C = ((cis (2 * w) - RtoC 1) / (RtoC 2 * Ci))%C) by (intro w; rewrite cis_half, Rmult_1_l; field; split; assumption).
    replace (RtoC (sin (v + u) / rho) * cis (v + u))%C with (RtoC (/ rho) * (RtoC (1 * sin (v + u)) * cis (v + u)))%C
      by (rewrite Cmult_assoc, <- RtoC_mult; f_equal; f_equal; field; lra).
    f_equal.
    rewrite Rplus_0_l, Rplus_0_r. replace (u + 2 * v) with (2 * v + u) by ring. rewrite cis_add.
    replace (RtoC (1 * sin u) * (cis (2 * v) * cis u))%C with (cis (2 * v) * (RtoC (1 * sin u) * cis u))%C by ring.
    rewrite !H'. replace (2 * (v + u)) with (2 * v + 2 * u) by ring. rewrite cis_add. field. split; assumption.
Qed.
Print Assumptions C78_glass_partial.
Lemma massless s : 0 < s -> Q2 s 0 0 = (sqrt s / 2) * (sqrt s / 2).
Proof. intro H. unfold Q2. replace (sqrt s / 2 * (sqrt s / 2)) with (sqrt s * sqrt s / 4) by field. rewrite sqrt_sqrt by lra. field. lra. Qed.
(** The documentation has the resonant phase within the sine as well, and the code does not: with phi_R the opposite of the phase of the
    Breit-Wigner the documented resonance vanishes, and the one of the code does not. *)
Theorem C78_glass_refuted : exists s s1 s2 mass width0 a r phiR phiF R_ F_, 0 < s /\ 0 < mass /\ 0 < Q2 s s1 s2 /\ 0 < Q2 (mass * mass) s1 s2 /\
  s <> mass * mass /\ 2 + a * r * Q2 s s1 s2 <> 0 /\
  let q := sqrt (Q2 s s1 s2) in let q0 := sqrt (Q2 (mass * mass) s1 s2) in
  let width := width0 * (q / sqrt s) / (q0 / mass) in
  (RtoC (q / sqrt s) * GLASS s s1 s2 mass width0 a r phiR phiF R_ F_)%C <>
    glass_documented R_ F_ (phiR + atan (mass * width / (mass * mass - s))) (phiF + atan (2 * a * q / (2 + a * r * Q2 s s1 s2))).
Proof.
  assert (R1 : sqrt 1 = 1) by apply sqrt_1. assert (R4 : sqrt 4 = 2) by (replace 4 with (2 * 2) by lra; apply sqrt_square; lra).
  assert (E1 : Q2 1 0 0 = / 2 * / 2) by (rewrite massless, R1 by lra; lra). assert (E2 : Q2 (2 * 2) 0 0 = 1 * 1) by (rewrite massless by lra; replace (2 * 2) with 4 by lra; rewrite R4; lra).
  exists 1, 0, 0, 2, (3 / 2), 0, 0, (- (PI / 4)), 0, 1, 0. repeat split; try lra. intros q q0 width.
  subst q q0 width. rewrite C78_glass by lra. rewrite E2, E1, !sqrt_square by lra. rewrite R1.
  replace (2 * (3 / 2 * (/ 2 / 1) / (1 / 2)) / (2 * 2 - 1)) with 1 by lra. replace (2 * 0 * / 2 / (2 + 0 * 0 * (/ 2 * / 2))) with 0 by lra. rewrite atan_0, atan_1.
  replace (- (PI / 4) + PI / 4) with 0 by lra. unfold glass_documented. rewrite Rplus_0_r, sin_0, Rmult_0_r, Rplus_0_l, !Rmult_0_r.
  unfold polar_form. rewrite sin_0, cos_0, sin_PI4. intro A. apply (f_equal fst) in A. cbn in A. assert (0 < 1 / sqrt 2) by (apply Rdiv_lt_0_compat; [lra|apply sqrt_lt_R0; lra]). lra.
Qed.
Print Assumptions C78_glass_refuted.
(** The documentation has both phases in degrees, and the code takes them in radians. *)
Theorem C78_glass_degrees_refuted : exists s s1 s2 mass width0 a r phiF R_ F_, 0 < s /\ 0 < mass /\ 0 < Q2 s s1 s2 /\ 0 < Q2 (mass * mass) s1 s2 /\
  s <> mass * mass /\ 2 + a * r * Q2 s s1 s2 <> 0 /\
  let q := sqrt (Q2 s s1 s2) in let q0 := sqrt (Q2 (mass * mass) s1 s2) in
  let width := width0 * (q / sqrt s) / (q0 / mass) in
  (RtoC (q / sqrt s) * GLASS s s1 s2 mass width0 a r 0 phiF R_ F_)%C <>
    glass_documented R_ F_ (atan (mass * width / (mass * mass - s))) (degrees phiF + atan (2 * a * q / (2 + a * r * Q2 s s1 s2))).
Proof.
  assert (R1 : sqrt 1 = 1) by apply sqrt_1. assert (R4 : sqrt 4 = 2) by (replace 4 with (2 * 2) by lra; apply sqrt_square; lra).
  assert (E1 : Q2 1 0 0 = / 2 * / 2) by (rewrite massless, R1 by lra; lra). assert (E2 : Q2 (2 * 2) 0 0 = 1 * 1) by (rewrite massless by lra; replace (2 * 2) with 4 by lra; rewrite R4; lra).
  exists 1, 0, 0, 2, (3 / 2), 0, 0, PI, 0, 1. repeat split; try lra. intros q q0 width.
  subst q q0 width. rewrite C78_glass by lra. rewrite E2, E1, !sqrt_square by lra. rewrite R1.
  replace (2 * 0 * / 2 / (2 + 0 * 0 * (/ 2 * / 2))) with 0 by lra. rewrite atan_0, !Rplus_0_r, sin_PI. unfold glass_documented, polar_form, degrees. rewrite !Rmult_0_l, !Rmult_0_r, !Rmult_1_l.
  pose proof PI_RGT_0 as P. pose proof PI_4 as P4. set (w := PI * PI / 180) in *.
  assert (W : 0 < w < PI) by (unfold w; split; nra). pose proof (sin_gt_0 w (proj1 W) (proj2 W)) as SW.
  intro A. assert (B := f_equal snd A). apply (f_equal fst) in A. cbn in A, B. pose proof (sin2_cos2 w) as T. unfold Rsqr in T. nra.
Qed.
Print Assumptions C78_glass_degrees_refuted.

(** ** Isotensor and inelastic *)
(** The isotensor amplitude is elastic; the one of the inelastic splines has the modulus that its spline gives, and half the phase of S. *)
Theorem C78_isotensor : forall s a b c d, elastic 1 (Isotensor s a b c d).
Proof.
  intros. unfold elastic, Isotensor. cbv zeta. set (p := - 2 * _ * _ / _). clearbody p. unfold smatrix.
  assert (Ci <> RtoC 0) by (intro E; injection E; lra). assert (RtoC 2 <> RtoC 0) by (apply RtoC_nz; lra).
  replace (RtoC 1 + RtoC 2 * Ci * RtoC 1 * ((cis p - RtoC 1) / (RtoC 2 * Ci)))%C with (cis p) by (field; split; assumption). apply abs2_cis.
Qed.
Print Assumptions C78_isotensor.
Theorem C78_inelastic : forall eta delta, smatrix 1 (InelasticSpline eta delta) = polar_form eta (2 * delta).
Proof.
  intros. unfold InelasticSpline, smatrix, polar_form, RtoC, Ci, Cminus, Cplus, Copp, Cmult. apply injective_projections; cbn; field.
Qed.
Print Assumptions C78_inelastic.
Example C78_inelastic_example : smatrix 1 (InelasticSpline (1 / 2) (PI / 4)) = (0, 1 / 2).
Proof. rewrite C78_inelastic. unfold polar_form. replace (2 * (PI / 4)) with (PI / 2) by lra. rewrite cos_PI2, sin_PI2. f_equal; lra. Qed.
