From Verif.Common Require Import Prelude.
From Coq Require Import Reals Lra Psatz Field.
From Coquelicot Require Import Hierarchy Complex.
From Coq Require Import List.
From Verif.Lineshapes Require Import Model Spec BarrierProofs BWProofs ShapeProofs KProofs UnitProofs.
Local Open Scope R_scope.

Lemma pair_den a b x y : 0 < x * x + y * y -> ((a, b) / den x y)%C = ((a * x - b * y) / (x * x + y * y), (a * y + b * x) / (x * x + y * y)).
Proof. intro P. rewrite den_pair. unfold Cdiv, Cinv, Cmult. cbn. apply injective_projections; cbn; field; nra. Qed.
(** ** Two channels *)
Section Two.
  Variables K11 K12 K22 r1 r2 : R.
  Let d := K11 * K22 - K12 * K12.
  Let x := 1 - r1 * r2 * d.
  Let y := r1 * K11 + r2 * K22.
  Lemma kpi_pair : 0 < x * x + y * y -> two_channel_Kpi (RtoC K11) (RtoC K12) (RtoC K22) (RtoC r1) (RtoC r2) =
    ((K11 * x + r2 * d * y) / (x * x + y * y), (K11 * y - r2 * d * x) / (x * x + y * y)).
  Proof.
    intro P. transitivity ((K11, (- (r2 * d))%R) / den x y)%C.
    - unfold two_channel_Kpi, Cdiv. f_equal; [|f_equal; rewrite den_pair]; unfold Cminus, Cplus, Copp, Cmult, Ci, RtoC; cbn; apply injective_projections; cbn; unfold x, y, d; ring.
    - rewrite pair_den by assumption. f_equal; f_equal; ring.
  Qed.
  Lemma keta_pair : 0 < x * x + y * y -> two_channel_KEta (RtoC K11) (RtoC K12) (RtoC K22) (RtoC r1) (RtoC r2) =
    (K12 * x / (x * x + y * y), K12 * y / (x * x + y * y)).
  Proof.
    intro P. transitivity ((K12, 0) / den x y)%C.
    - unfold two_channel_KEta, Cdiv. f_equal; f_equal; rewrite den_pair; unfold Cminus, Cplus, Copp, Cmult, Ci, RtoC; cbn; apply injective_projections; cbn; unfold x, y, d; ring.
    - rewrite pair_den by assumption. f_equal; f_equal; ring.
  Qed.
  Lemma del_pos : 0 <= r1 -> 0 <= r2 -> 0 < x * x + y * y.
  Proof.
    intros H1 H2. pose proof (Rle_0_sqr x) as X. pose proof (Rle_0_sqr y) as Y. unfold Rsqr in *.
    destruct (Req_dec y 0) as [E|N]; [|pose proof (Rsqr_pos_lt y N) as Z; unfold Rsqr in Z; lra].
    assert (1 <= x); [|nra]. unfold x, d.
    assert (r1 * r2 * (K11 * K22 - K12 * K12) = - (r1 * K11 * (r1 * K11)) - r1 * r2 * (K12 * K12)) as ->.
    { assert (r2 * K22 = - (r1 * K11)) by (unfold y in E; lra). transitivity (r1 * K11 * (r2 * K22) - r1 * r2 * (K12 * K12)); [ring|]. rewrite H. ring. }
    pose proof (Rle_0_sqr (r1 * K11)) as A. pose proof (Rle_0_sqr K12) as B. unfold Rsqr in *.
    assert (0 <= r1 * r2 * (K12 * K12)) by (apply Rmult_le_pos; [apply Rmult_le_pos|]; assumption). lra.
  Qed.
  Lemma two_open : 0 <= r1 -> 0 <= r2 ->
    let A := two_channel_Kpi (RtoC K11) (RtoC K12) (RtoC K22) (RtoC r1) (RtoC r2) in
    let B := two_channel_KEta (RtoC K11) (RtoC K12) (RtoC K22) (RtoC r1) (RtoC r2) in
    snd A = r1 * abs2 A + r2 * abs2 B.
  Proof.
    intros H1 H2 A B. pose proof (del_pos H1 H2) as P. unfold A, B. rewrite kpi_pair, keta_pair by assumption. unfold abs2. cbn [fst snd].
    assert (E : K11 * y - r2 * d * x = r1 * (K11 * K11 + r2 * d * (r2 * d)) + r2 * (K12 * K12)) by (unfold x, y, d; ring).
    set (N := x * x + y * y) in *. 
    transitivity ((r1 * (K11 * K11 + r2 * d * (r2 * d)) + r2 * (K12 * K12)) / N); [now rewrite E|].
    transitivity ((r1 * (K11 * K11 + r2 * d * (r2 * d)) + r2 * (K12 * K12)) * (x * x + y * y) / (N * N)); [unfold N; field; unfold N in P; lra|]. field. lra.
  Qed.
End Two.
Lemma two_closed K11 K12 K22 r1 k2 :
  let d := K11 * K22 - K12 * K12 in
  1 + k2 * K22 <> 0 \/ r1 * (K11 + k2 * d) <> 0 ->
  elastic r1 (two_channel_Kpi (RtoC K11) (RtoC K12) (RtoC K22) (RtoC r1) (0, k2)).
Proof.
  intros d H.
  assert (two_channel_Kpi (RtoC K11) (RtoC K12) (RtoC K22) (RtoC r1) (0, k2) = (RtoC (K11 + k2 * d) / den (1 + k2 * K22) (r1 * (K11 + k2 * d)))%C) as ->.
  { unfold two_channel_Kpi, den. unfold Cdiv. f_equal; [|f_equal]; unfold Cminus, Cplus, Copp, Cmult, Ci, RtoC; cbn; apply injective_projections; cbn; unfold d; ring. }
  apply elastic_den; [reflexivity|assumption].
Qed.

(** the two-channel formulae are the scattering amplitude of the general code *)
Lemma two_general K rho F : K 0%nat 1%nat = K 1%nat 0%nat -> propagates 2 K rho F ->
  (RtoC 1 - rho 0%nat * rho 1%nat * (K 0%nat 0%nat * K 1%nat 1%nat - K 0%nat 1%nat * K 0%nat 1%nat) - Ci * (rho 0%nat * K 0%nat 0%nat + rho 1%nat * K 1%nat 1%nat) <> RtoC 0)%C ->
  scatt 2 K F 0 0 = two_channel_Kpi (K 0%nat 0%nat) (K 0%nat 1%nat) (K 1%nat 1%nat) (rho 0%nat) (rho 1%nat) /\
  scatt 2 K F 0 1 = two_channel_KEta (K 0%nat 0%nat) (K 0%nat 1%nat) (K 1%nat 1%nat) (rho 0%nat) (rho 1%nat).
Proof.
  intros Sym H N.
  set (U := fun i => match i with O => two_channel_Kpi (K 0%nat 0%nat) (K 0%nat 1%nat) (K 1%nat 1%nat) (rho 0%nat) (rho 1%nat)
                     | _ => two_channel_KEta (K 0%nat 0%nat) (K 0%nat 1%nat) (K 1%nat 1%nat) (rho 0%nat) (rho 1%nat) end).
  assert (E : forall i, (i < 2)%nat -> U i = (K i 0%nat + Ci * csum 2 (fun k => K i k * rho k * U k))%C).
  { intros i Hi. assert (L : (i = 0 \/ i = 1)%nat) by lia. destruct L as [-> | ->]; cbn [U csum]; rewrite <- ?Sym; unfold two_channel_Kpi, two_channel_KEta;
      set (a := K 0%nat 0%nat) in *; set (b := K 0%nat 1%nat) in *; set (c := K 1%nat 1%nat) in *; set (r := rho 0%nat) in *; set (t := rho 1%nat) in *; clearbody a b c r t.
    - set (D := (RtoC 1 - r * t * (a * c - b * b) - Ci * (r * a + t * c))%C) in *.
      transitivity (((a * D + Ci * (a * r * (a - Ci * t * (a * c - b * b)) + b * t * b)) / D)%C); [|field; exact N].
      f_equal. unfold D. transitivity (a - Ci * t * (a * c - b * b) - a * r * t * (a * c - b * b) * (RtoC 1 + Ci * Ci))%C; [rewrite ii; ring|]. ring.
    - set (D := (RtoC 1 - r * t * (a * c - b * b) - Ci * (r * a + t * c))%C) in *.
      transitivity (((b * D + Ci * (b * r * (a - Ci * t * (a * c - b * b)) + c * t * b)) / D)%C); [|field; exact N].
      f_equal. unfold D. transitivity (b - b * r * t * (a * c - b * b) * (RtoC 1 + Ci * Ci))%C; [rewrite ii; ring|]. ring. }
  assert (P : forall i, (i < 2)%nat -> U i = scatt 2 K F 0 i).
  { intros i Hi. rewrite (solve 2 K rho F H U (fun k => K k 0%nat) E i Hi). now rewrite T_sum. }
  split; [rewrite <- (P 0%nat) by lia|rewrite <- (P 1%nat) by lia]; reflexivity.
Qed.

(** ** The K matrices are real *)
Fixpoint real_K (s : R) (poles : list (R * (nat -> R))) (acc : R) (i j : nat) : R :=
  match poles with nil => acc | p :: l => real_K s l (acc + snd p i * snd p j / (fst p - s)) i j end.
Definition real_poles (poles : list (R * (nat -> R))) : list poleConfig := map (fun p => Pole (RtoC (fst p)) (snd p)) poles.
Lemma RtoC_frac a b c : b <> c -> (RtoC a / (RtoC b - RtoC c))%C = RtoC (a / (b - c)).
Proof. intro H. rewrite <- RtoC_minus, <- RtoC_div; [reflexivity|lra]. Qed.
Lemma constructK_acc s poles acc i j : Forall (fun p => fst p <> s) poles ->
  fold_left (fun sum p => (sum + RtoC (couplings p i * couplings p j) / (pole_s p - RtoC s))%C) (real_poles poles) (RtoC acc) = RtoC (real_K s poles acc i j).
Proof.
  revert acc. induction poles as [|p l IH]; intros acc H; [reflexivity|]. inversion_clear H. cbn -[RtoC]. rewrite RtoC_frac by assumption. rewrite <- RtoC_plus. now apply IH.
Qed.
Lemma constructK_real s poles i j : Forall (fun p => fst p <> s) poles -> constructKMatrix s (real_poles poles) i j = RtoC (real_K s poles 0 i j).
Proof. apply constructK_acc. Qed.
Lemma real_K_sym s poles acc i j : real_K s poles acc i j = real_K s poles acc j i.
Proof. revert acc. induction poles as [|p l IH]; intro acc; cbn; [reflexivity|]. rewrite (Rmult_comm (snd p i)). apply IH. Qed.

(** ** Phase space *)
Lemma complex_sqrt_scale c x : 0 < c -> complex_sqrt (c * c * x) = (RtoC c * complex_sqrt x)%C.
Proof.
  intro H. destruct (Rlt_dec 0 x) as [P|P].
  - rewrite (complex_sqrt_pos (c * c * x)) by (apply Rmult_lt_0_compat; [nra|assumption]). rewrite (complex_sqrt_pos x) by assumption. rewrite <- RtoC_mult. f_equal. rewrite sqrt_mult_alt by nra. now rewrite sqrt_square by lra.
  - assert (c * c * x <= 0) by (assert (0 < c * c) by nra; nra). rewrite !complex_sqrt_neg by lra.
    replace (- (c * c * x)) with (c * c * - x) by ring. rewrite sqrt_mult_alt by nra. rewrite sqrt_square by lra. unfold RtoC, Cmult. cbn. f_equal; ring.
Qed.
Lemma focus_Q2 s m0 m1 : 0 < s -> (1 - (m0 + m1) * (m0 + m1) / s) * (1 - (m0 - m1) * (m0 - m1) / s) = 2 * 2 * (Q2 s (m0 * m0) (m1 * m1) / s).
Proof. intro H. unfold Q2. field. lra. Qed.
Lemma phsp_agree s m0 m1 : 0 < s ->
  phsp_FOCUS s m0 m1 = phsp_0707_3596 s (m0 * m0) (m1 * m1) /\ phsp_FOCUS s m0 m1 = (RtoC (16 * PI) * rho_twoBody s (m0 * m0) (m1 * m1))%C.
Proof.
  intro H. assert (E : phsp_FOCUS s m0 m1 = phsp_0707_3596 s (m0 * m0) (m1 * m1)).
  { unfold phsp_FOCUS, phsp_0707_3596. rewrite focus_Q2 by assumption. apply complex_sqrt_scale. lra. }
  split; [exact E|]. rewrite E. unfold rho_twoBody, Hr, phsp_0707_3596. pose proof PI_RGT_0 as P.
  replace (s * s + m0 * m0 * (m0 * m0) + m1 * m1 * (m1 * m1) - 2 * s * (m0 * m0) - 2 * s * (m1 * m1) - 2 * (m1 * m1) * (m0 * m0))
    with ((2 * s) * (2 * s) * (Q2 s (m0 * m0) (m1 * m1) / s)) by (unfold Q2; field; lra).
  rewrite complex_sqrt_scale by lra. set (z := complex_sqrt _). clearbody z. rewrite !RtoC_mult. field.
  assert (N : forall a, a <> 0 -> RtoC a <> RtoC 0) by (intros a A E'; apply A; now injection E').
  repeat split; apply N; lra.
Qed.
Lemma phsp_open s m0 m1 : 0 <= m0 -> 0 <= m1 -> (m0 + m1) * (m0 + m1) < s -> 0 < Q2 s (m0 * m0) (m1 * m1) /\ phsp_FOCUS s m0 m1 = RtoC (2 * sqrt (Q2 s (m0 * m0) (m1 * m1)) / sqrt s).
Proof.
  intros P0 P1 H. assert (S : 0 < s) by nra. assert (Q : 0 < Q2 s (m0 * m0) (m1 * m1)).
  { replace (Q2 s (m0 * m0) (m1 * m1)) with ((s - (m0 + m1) * (m0 + m1)) * (s - (m0 - m1) * (m0 - m1)) / (4 * s)) by (unfold Q2; field; lra).
    apply Rdiv_lt_0_compat; [|lra]. apply Rmult_lt_0_compat; nra. }
  split; [exact Q|]. destruct (phsp_agree s m0 m1 S) as [-> _]. unfold phsp_0707_3596. rewrite complex_sqrt_pos by (apply Rdiv_lt_0_compat; assumption).
  rewrite <- RtoC_mult. f_equal. rewrite sqrt_div by lra. field. pose proof (sqrt_lt_R0 s S). lra.
Qed.
Lemma phsp_closed s m0 m1 : 0 < s -> (m0 - m1) * (m0 - m1) <= s -> s <= (m0 + m1) * (m0 + m1) -> exists k, 0 <= k /\ phsp_FOCUS s m0 m1 = (0, k).
Proof.
  intros S Lo Hi. unfold phsp_FOCUS. rewrite complex_sqrt_neg.
  - eexists; split; [|reflexivity]. apply sqrt_pos.
  - replace ((1 - (m0 + m1) * (m0 + m1) / s) * (1 - (m0 - m1) * (m0 - m1) / s)) with (- (((m0 + m1) * (m0 + m1) - s) * (s - (m0 - m1) * (m0 - m1)) / (s * s))) by (field; lra).
    assert (0 <= ((m0 + m1) * (m0 + m1) - s) * (s - (m0 - m1) * (m0 - m1)) / (s * s)); [|lra].
    apply Rmult_le_pos; [apply Rmult_le_pos; lra|]. apply Rlt_le, Rinv_0_lt_compat. nra.
Qed.

(** ** FOCUS and PALANO *)
Lemma focus_real s mK mPi i j : s <> 17919 / 10000 -> exists k, FOCUS_K s mK mPi i j = RtoC k.
Proof.
  intro H. unfold FOCUS_K. cbv zeta.
  change (FOCUS_pole :: nil) with (real_poles ((17919 / 10000, fun i => match i with O => 31072 / 100000 | _ => - (2323 / 100000) end) :: nil)).
  rewrite constructK_real by (constructor; [cbn; lra|constructor]). rewrite <- RtoC_plus, <- RtoC_mult. now eexists.
Qed.
Lemma palano_real s mK mPi i j : s <> 17991 / 10000 -> s <> 83627 / 10000 -> exists k, PALANO_K s mK mPi i j = RtoC k.
Proof.
  intros H H'. unfold PALANO_K. cbv zeta.
  change PALANO_poles with (real_poles ((17991 / 10000, fun i => match i with O => 3139 / 10000 | _ => - (775 / 100000) end) :: (83627 / 10000, fun i => match i with O => 11804 / 10000 | _ => - (22335 / 100000) end) :: nil)).
  rewrite constructK_real by (constructor; [cbn; lra|constructor; [cbn; lra|constructor]]). rewrite <- RtoC_plus, <- RtoC_mult. now eexists.
Qed.

(** ** The production vector *)
Definition resonant n a s k p : C := (csum n (fun q => RtoC (a q * couplings p q)) * RtoC (couplings p k) / (pole_s p - RtoC s))%C.
Lemma pvec_acc n a nr s s0 k poles : s <> s0 -> forall phi P,
  snd (fold_left (pvec_step n a nr s s0 k) poles (phi, P)) =
  (P + over (resonant n a s k) poles
     + (RtoC (INR (length poles)) * phi + RtoC (INR (length poles) * (INR (length poles) + 1) / 2) * csum n (fun q => RtoC (a q) * nr k q)) * RtoC (1 + s0) / RtoC (s - s0))%C.
Proof.
  intros N. assert (N' : RtoC (s - s0) <> RtoC 0) by (intro E; injection E; lra).
  assert (N2 : RtoC 2 <> RtoC 0) by (intro E; injection E; lra).
  induction poles as [|p l IH]; intros phi P.
  - cbn -[RtoC]. replace (0 * (0 + 1) / 2) with 0 by lra. field. assumption.
  - cbn [fold_left]. unfold pvec_step at 2. cbn [fst snd]. rewrite IH. cbn [length]. rewrite S_INR. unfold over. cbn [fold_right]. fold (over (resonant n a s k) l).
    fold (resonant n a s k p). set (X := csum n (fun q => RtoC (a q) * nr k q)%C). set (Y := over _ l). set (Z := resonant n a s k p). set (m := INR (length l)).
    clearbody X Y Z m. rewrite !RtoC_div by lra. rewrite !RtoC_mult, !RtoC_plus. set (v := RtoC (s - s0)) in *.
    replace (RtoC 2) with (RtoC 1 + RtoC 1)%C in * by (rewrite <- RtoC_plus; f_equal; ring). field. split; assumption.
Qed.
