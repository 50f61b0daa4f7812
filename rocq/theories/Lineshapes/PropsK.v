(** C77: K matrices, and the phase space they are unitarised with. *)
From Verif.Common Require Import Prelude.
From Coq Require Import Reals Lra Psatz Field FunctionalExtensionality.
From Coquelicot Require Import Hierarchy Complex.
From Coq Require Import List.
From Verif.Lineshapes Require Import Model Spec BarrierProofs BWProofs ShapeProofs KProofs UnitProofs ChannelProofs PropsBarrier.
Local Open Scope R_scope.

(** The propagator is the inverse of 1 - i K rho, for any number of channels: it never divides by zero on the way. *)
Theorem C77_propagator : forall n (k : nat -> nat -> R) (rho : nat -> R), (forall i j, k i j = k j i) -> (forall i, 0 <= rho i) ->
  propagates n (fun i j => RtoC (k i j)) (fun i => RtoC (rho i)) (getPropagator n (fun i j => RtoC (k i j)) (fun i => RtoC (rho i))).
Proof. exact getPropagator_ok. Qed.
Print Assumptions C77_propagator.

(** The scattering amplitude is symmetric, and unitary above the thresholds. *)
Theorem C77_unitary : forall n (k : nat -> nat -> R) (rho : nat -> R), (forall i j, k i j = k j i) -> (forall i, 0 <= rho i) ->
  let K := fun i j => RtoC (k i j) in
  let T := fun i j => scatt n K (getPropagator n K (fun i => RtoC (rho i))) i j in
  (forall i j, (i < n)%nat -> (j < n)%nat -> T i j = T j i) /\ unitary n (Smatrix rho T).
Proof.
  intros n k rho Sym Pos K T. pose proof (getPropagator_ok n k rho Sym Pos) as H.
  assert (S : forall i j, (i < n)%nat -> (j < n)%nat -> T i j = T j i) by (intros i j Hi Hj; apply (T_sym n K _ _ H); [unfold K; intros; now rewrite Sym|assumption|assumption]).
  split; [exact S|]. intros i j Hi Hj. rewrite <- (S_unitary n k rho _ Sym (fun i _ => Pos i) H i j Hi Hj).
  rewrite <- !csum_total. apply csum_ext. intros x Hx. unfold Smatrix. rewrite (S i x), (S j x) by assumption. reflexivity.
Qed.
Print Assumptions C77_unitary.
(** So it is for the sum over poles with a background and an Adler factor. *)
Theorem C77_poles : forall n s (poles : list (R * (nat -> R))) (b : nat -> nat -> R) (adler : R) (rho : nat -> R),
  (forall i j, b i j = b j i) -> (forall i, 0 <= rho i) -> Forall (fun p => fst p <> s) poles ->
  let K := fun i j => (RtoC adler * (constructKMatrix s (map (fun p => Pole (RtoC (fst p)) (snd p)) poles) i j + RtoC (b i j)))%C in
  unitary n (Smatrix rho (fun i j => scatt n K (getPropagator n K (fun i => RtoC (rho i))) i j)).
Proof.
  intros n s poles b adler rho Sym Pos Off K.
  assert (K = fun i j => RtoC (adler * (real_K s poles 0 i j + b i j))) as ->.
  { unfold K. apply functional_extensionality; intro i. apply functional_extensionality; intro j. change (map _ poles) with (real_poles poles). rewrite (constructK_real s poles i j Off). now rewrite <- RtoC_plus, <- RtoC_mult. }
  apply (C77_unitary n (fun i j => adler * (real_K s poles 0 i j + b i j))); [|assumption].
  intros i j. rewrite real_K_sym, Sym. reflexivity.
Qed.
Print Assumptions C77_poles.
Example C77_poles_example :
  let poles := (4, fun i => match i with O => 2 | _ => 1 end) :: (9, fun i => match i with O => 1 | _ => -3 end) :: nil in
  let b i j := match i, j with O, O => 3 | S _, S _ => 5 | _, _ => -1 end in
  let K := fun i j => (RtoC 7 * (constructKMatrix 6 (map (fun p => Pole (RtoC (fst p)) (snd p)) poles) i j + RtoC (b i j)))%C in
  unitary 2 (Smatrix (fun i => INR i + 1) (fun i j => scatt 2 K (getPropagator 2 K (fun i => RtoC (INR i + 1))) i j)).
Proof.
  intros poles b K. apply (C77_poles 2 6 poles b 7 (fun i => INR i + 1)).
  - intros [|i] [|j]; reflexivity.
  - intro i. pose proof (pos_INR i). lra.
  - repeat constructor; cbn; lra.
Qed.

(** With one pole it is a Flatte shape, whatever the phase space. *)
Theorem C77_one_pole : forall n g m2 s rho F, propagates n (constructKMatrix s (Pole m2 g :: nil)) rho F -> m2 <> RtoC s ->
  let D := (m2 - RtoC s - Ci * total n (fun k => RtoC (g k * g k) * rho k))%C in
  D <> RtoC 0 -> forall f, (f < n)%nat -> pole_term n F (Pole m2 g) s f = (RtoC (g f) / D)%C.
Proof. intros n g m2 s rho F H N D. unfold D. rewrite <- csum_total. exact (one_pole n g m2 s rho F H N). Qed.
Print Assumptions C77_one_pole.
(** In one channel, with the coupling taken from the width, this is the Breit-Wigner shape with that width at its mass. *)
Theorem C77_width : forall m gamma rho0 s rho, 0 < m -> 0 < gamma -> 0 < rho0 -> 0 <= rho -> s <> m * m ->
  let p := Pole (RtoC (m * m)) (fun _ => gFromGamma m gamma rho0) in
  let g := gFromGamma m gamma rho0 in
  pole_term 1 (getPropagator 1 (constructKMatrix s (p :: nil)) (fun _ => RtoC rho)) p s 0 =
  (RtoC g / (RtoC (m * m - s) - Ci * RtoC (m * gamma * (rho / rho0))))%C.
Proof.
  intros m gamma rho0 s rho Pm Pg P0 P N p g.
  assert (E : constructKMatrix s (p :: nil) = fun i j => RtoC (real_K s ((m * m, fun _ => g) :: nil) 0 i j)).
  { apply functional_extensionality; intro i. apply functional_extensionality; intro j. apply (constructK_real s ((m * m, fun _ => g) :: nil)). constructor; [cbn; lra|constructor]. }
  assert (H : propagates 1 (constructKMatrix s (p :: nil)) (fun _ => RtoC rho) (getPropagator 1 (constructKMatrix s (p :: nil)) (fun _ => RtoC rho))).
  { rewrite E. apply (getPropagator_ok 1 _ (fun _ => rho)); [intros; apply real_K_sym|intros; assumption]. }
  assert (G : g * g = m * gamma / rho0) by (unfold g, gFromGamma; apply sqrt_sqrt; apply Rlt_le, Rdiv_lt_0_compat; [nra|assumption]).
  assert (D : (RtoC (m * m) - RtoC s - Ci * total 1 (fun k => RtoC (g * g) * RtoC rho))%C = (RtoC (m * m - s) - Ci * RtoC (m * gamma * (rho / rho0)))%C).
  { rewrite RtoC_minus. cbn [total]. f_equal. f_equal. f_equal. rewrite G, <- RtoC_mult. rewrite Cplus_0_l. f_equal. field. lra. }
  assert (N' : RtoC (m * m) <> RtoC s) by (intro A; injection A; lra).
  pose proof (C77_one_pole 1 (fun _ => g) (RtoC (m * m)) s (fun _ => RtoC rho) _ H N') as Q. cbv beta zeta in Q. rewrite D in Q. apply Q; [|lia].
  apply (den_neq (m * m - s)). left. lra.
Qed.
Print Assumptions C77_width.
Example C77_width_example : pole_term 1 (getPropagator 1 (constructKMatrix 3 (Pole (RtoC (1 * 1)) (fun _ => gFromGamma 1 2 2) :: nil)) (fun _ => RtoC 1)) (Pole (RtoC (1 * 1)) (fun _ => gFromGamma 1 2 2)) 3 0 =
  (RtoC 1 / (RtoC (-2) - Ci * RtoC 1))%C.
Proof.
  rewrite (C77_width 1 2 2 3 1) by lra. unfold gFromGamma. replace (1 * 2 / 2) with 1 by lra. rewrite sqrt_1. f_equal. f_equal; [f_equal; lra|]. f_equal. f_equal. f_equal. lra.
Qed.

(** With the imaginary part that the K matrix of the kMatrix shape adds to its poles, scattering creates probability: one channel below
    a pole at 1 already has |S| > 1. *)
Theorem C77_imaginary_refuted : exists s mass g rho, 0 < s /\ 0 < mass /\ 0 < rho /\
  let K := constructKMatrix s (Pole (kMatrix_pole true mass) (fun _ => g) :: nil) in
  abs2 (smatrix rho (scatt 1 K (getPropagator 1 K (fun _ => RtoC rho)) 0 0)) > 1.
Proof.
  exists 1, 2, 1, 1. repeat split; try lra.
  intro K. set (e := / 1000000) in *.
  assert (KE : K 0%nat 0%nat = (RtoC 1 / (3, e))%C).
  { unfold K, constructKMatrix, kMatrix_pole. cbn [fold_left couplings pole_s]. rewrite Cplus_0_l. f_equal; [f_equal; ring|]. unfold Ci, RtoC, Cmult, Cplus, Cminus, Copp. apply injective_projections; cbn -[e]; unfold e; lra. }
  assert (N3 : ((3, e) : C) <> RtoC 0) by (intro A; injection A; lra).
  assert (Nd : ((3, e) - Ci)%C <> RtoC 0) by (intro A; apply (f_equal fst) in A; cbn in A; lra).
  assert (T : scatt 1 K (getPropagator 1 K (fun _ => RtoC 1)) 0 0 = (RtoC 1 / ((3, e) - Ci))%C).
  { transitivity (K 0%nat 0%nat * (RtoC 1 / (RtoC 1 - Ci * K 0%nat 0%nat * RtoC 1)))%C.
    - unfold scatt, getPropagator, cinvert. cbn -[K RtoC Cmult Cplus Cdiv Cminus Copp]. ring.
    - rewrite KE. field. repeat split; try assumption. }
  rewrite T. assert (S : smatrix 1 (RtoC 1 / ((3, e) - Ci))%C = ((3, (1 + e)%R) / ((3, e) - Ci))%C).
  { unfold smatrix. replace ((3, (1 + e)%R) : C) with ((3, e) - Ci + RtoC 2 * Ci)%C; [field; assumption|].
    unfold Ci, RtoC, Cmult, Cplus, Cminus, Copp. apply injective_projections; cbn -[e]; ring. }
  rewrite S, abs2_div by assumption. unfold abs2, Ci, Cminus, Cplus, Copp. cbn -[e].
  assert (0 < e) by (unfold e; lra). clearbody e. apply Rlt_gt, (Rmult_lt_reg_r ((3 + - 0) * (3 + - 0) + (e + - (1)) * (e + - (1)))); [nra|].
  unfold Rdiv. rewrite Rmult_assoc, Rinv_l by nra. nra.
Qed.
Print Assumptions C77_imaginary_refuted.

(** The two-channel shapes are the first column of the same amplitude. *)
Theorem C77_two_channel : forall (k : nat -> nat -> R) (rho : nat -> R), (forall i j, k i j = k j i) -> (forall i, 0 <= rho i) ->
  let K := fun i j => RtoC (k i j) in
  let F := getPropagator 2 K (fun i => RtoC (rho i)) in
  two_channel_Kpi (K 0%nat 0%nat) (K 0%nat 1%nat) (K 1%nat 1%nat) (RtoC (rho 0%nat)) (RtoC (rho 1%nat)) = scatt 2 K F 0 0 /\
  two_channel_KEta (K 0%nat 0%nat) (K 0%nat 1%nat) (K 1%nat 1%nat) (RtoC (rho 0%nat)) (RtoC (rho 1%nat)) = scatt 2 K F 0 1.
Proof.
  intros k rho Sym Pos K F. destruct (two_general K (fun i => RtoC (rho i)) F) as [A B].
  - unfold K. now rewrite Sym.
  - exact (getPropagator_ok 2 k rho Sym Pos).
  - pose proof (del_pos (k 0%nat 0%nat) (k 0%nat 1%nat) (k 1%nat 1%nat) (rho 0%nat) (rho 1%nat) (Pos 0%nat) (Pos 1%nat)) as P. unfold K.
    rewrite <- !RtoC_mult, <- !RtoC_minus, <- !RtoC_plus, <- !RtoC_mult, <- RtoC_minus. 
    apply (den_neq (1 - rho 0%nat * rho 1%nat * (k 0%nat 0%nat * k 1%nat 1%nat - k 0%nat 1%nat * k 0%nat 1%nat))).
    match goal with |- ?x <> 0 \/ ?y <> 0 => destruct (Req_dec x 0) as [Ex|]; [right; intro Ey|now left] end. rewrite Ex, Ey in P. lra.
  - now rewrite A, B.
Qed.
Print Assumptions C77_two_channel.
(** Above both thresholds the imaginary part of the K pi amplitude is the sum of the two rates. *)
Theorem C77_focus : forall s mK mPi mEtap, 0 <= mK -> 0 <= mPi -> 0 <= mEtap ->
  (mK + mPi) * (mK + mPi) < s -> (mK + mEtap) * (mK + mEtap) < s -> s <> 17919 / 10000 ->
  let rate m := 2 * sqrt (Q2 s (mK * mK) (m * m)) / sqrt s in
  snd (FOCUS_Kpi s mK mPi mEtap) = rate mPi * abs2 (FOCUS_Kpi s mK mPi mEtap) + rate mEtap * abs2 (FOCUS_KEta s mK mPi mEtap).
Proof.
  intros s mK mPi mEtap PK PP PE T1 T2 N rate. unfold FOCUS_Kpi, FOCUS_KEta.
  destruct (phsp_open s mK mPi PK PP T1) as [_ ->]. destruct (phsp_open s mK mEtap PK PE T2) as [_ ->].
  destruct (focus_real s mK mPi 0 0 N) as [a ->]. destruct (focus_real s mK mPi 0 1 N) as [b ->]. destruct (focus_real s mK mPi 1 1 N) as [c ->].
  apply two_open; unfold Rdiv; apply Rmult_le_pos; try (apply Rmult_le_pos; [lra|apply sqrt_pos]); apply Rlt_le, Rinv_0_lt_compat, sqrt_lt_R0; nra.
Qed.
Print Assumptions C77_focus.
Theorem C77_palano : forall s mK mPi mEtap, 0 <= mK -> 0 <= mPi -> 0 <= mEtap ->
  (mK + mPi) * (mK + mPi) < s -> (mK + mEtap) * (mK + mEtap) < s -> s <> 17991 / 10000 -> s <> 83627 / 10000 ->
  let rate m := sqrt (1 - (mK + m) * (mK + m) / s) in
  snd (PALANO_Kpi s mK mPi mEtap) = rate mPi * abs2 (PALANO_Kpi s mK mPi mEtap) + rate mEtap * abs2 (PALANO_KEta s mK mPi mEtap).
Proof.
  intros s mK mPi mEtap PK PP PE T1 T2 N N' rate. unfold PALANO_Kpi, PALANO_KEta, phsp_twoBody.
  assert (S : 0 < s) by nra.
  assert (O : forall m, (mK + m) * (mK + m) < s -> 0 < 1 - (mK + m) * (mK + m) / s).
  { intros m H. replace (1 - (mK + m) * (mK + m) / s) with ((s - (mK + m) * (mK + m)) / s) by (field; lra). apply Rdiv_lt_0_compat; lra. }
  rewrite !complex_sqrt_pos by (apply O; assumption).
  destruct (palano_real s mK mPi 0 0 N N') as [a ->]. destruct (palano_real s mK mPi 0 1 N N') as [b ->]. destruct (palano_real s mK mPi 1 1 N N') as [c ->].
  apply two_open; apply sqrt_pos.
Qed.
Print Assumptions C77_palano.
Example C77_focus_example : snd (FOCUS_Kpi 4 (1 / 2) (1 / 7) 1) =
  2 * sqrt (Q2 4 (1 / 2 * (1 / 2)) (1 / 7 * (1 / 7))) / sqrt 4 * abs2 (FOCUS_Kpi 4 (1 / 2) (1 / 7) 1) + 2 * sqrt (Q2 4 (1 / 2 * (1 / 2)) (1 * 1)) / sqrt 4 * abs2 (FOCUS_KEta 4 (1 / 2) (1 / 7) 1).
Proof. apply C77_focus; lra. Qed.
(** Below the second threshold the first channel alone is elastic: the closed one only shifts it. *)
Theorem C77_closed : forall s mK mPi mEtap, 0 <= mK -> 0 <= mPi -> 0 <= mEtap ->
  (mK + mPi) * (mK + mPi) < s -> (mK - mEtap) * (mK - mEtap) <= s -> s <= (mK + mEtap) * (mK + mEtap) -> s <> 17919 / 10000 ->
  FOCUS_Kpi s mK mPi mEtap <> RtoC 0 ->
  elastic (2 * sqrt (Q2 s (mK * mK) (mPi * mPi)) / sqrt s) (FOCUS_Kpi s mK mPi mEtap).
Proof.
  intros s mK mPi mEtap PK PP PE T1 L H N NZ. assert (S : 0 < s) by nra.
  destruct (phsp_open s mK mPi PK PP T1) as [Q E1]. destruct (phsp_closed s mK mEtap S L H) as (k & Pk & E2). unfold FOCUS_Kpi in *. rewrite E1, E2 in *.
  destruct (focus_real s mK mPi 0 0 N) as [a Ea]. destruct (focus_real s mK mPi 0 1 N) as [b Eb]. destruct (focus_real s mK mPi 1 1 N) as [c Ec]. rewrite Ea, Eb, Ec in *.
  apply two_closed. set (r := 2 * sqrt _ / sqrt s) in *.
  assert (R : 0 < r) by (unfold r; apply Rdiv_lt_0_compat; [apply Rmult_lt_0_compat; [lra|now apply sqrt_lt_R0]|now apply sqrt_lt_R0]).
  right. intro Z. apply Rmult_integral in Z. destruct Z as [Z|Z]; [lra|]. apply NZ. unfold two_channel_Kpi.
  replace (RtoC a - Ci * (0, k) * (RtoC a * RtoC c - RtoC b * RtoC b))%C with (RtoC 0); [unfold Cdiv; ring|].
  unfold Ci, RtoC, Cmult, Cminus, Cplus, Copp. apply injective_projections; cbn; [|ring].
  transitivity (a + k * (a * c - b * b)); [now symmetry|ring].
Qed.
Print Assumptions C77_closed.

(** The phase spaces: twice the momentum over the energy, in every one of the forms that the code has for two different masses. *)
Theorem C77_phase_space : forall s m0 m1, 0 <= m0 -> 0 <= m1 -> (m0 + m1) * (m0 + m1) < s -> forall q, breakup s m0 m1 q ->
  phsp_FOCUS s m0 m1 = RtoC (2 * q / sqrt s) /\ phsp_0707_3596 s (m0 * m0) (m1 * m1) = RtoC (2 * q / sqrt s) /\
  rho_twoBody s (m0 * m0) (m1 * m1) = RtoC (q / (8 * PI * sqrt s)).
Proof.
  intros s m0 m1 P0 P1 H q B. assert (S : 0 < s) by nra. destruct (phsp_open s m0 m1 P0 P1 H) as [Q E].
  apply C75_momentum in B; [|assumption..]. destruct B as [_ ->]. destruct (phsp_agree s m0 m1 S) as [E1 E2]. pose proof PI_RGT_0 as P. pose proof (sqrt_lt_R0 s S) as R.
  split; [exact E|]. split; [now rewrite <- E1|].
  assert (N : RtoC (16 * PI) <> RtoC 0) by (intro A; injection A; lra).
  rewrite E in E2. replace (rho_twoBody s (m0 * m0) (m1 * m1)) with (RtoC (16 * PI) * rho_twoBody s (m0 * m0) (m1 * m1) / RtoC (16 * PI))%C by (field; assumption).
  rewrite <- E2, <- RtoC_div by lra. f_equal. field. lra.
Qed.
Print Assumptions C77_phase_space.
Example C77_phase_space_example : breakup 100 3 5 (sqrt (Q2 100 9 25)).
Proof. pose proof (C75_momentum 100 3 5 (sqrt (Q2 100 (3 * 3) (5 * 5)))) as H. replace (3 * 3) with 9 in H by lra. replace (5 * 5) with 25 in H by lra. apply H; lra. Qed.
(** The one of the kMatrix and PALANO shapes only is for two equal masses. *)
Theorem C77_phsp_twoBody_partial : forall s m, 0 <= m -> (m + m) * (m + m) < s -> forall q, breakup s m m q -> phsp_twoBody s m m = RtoC (2 * q / sqrt s).
Proof.
  intros s m P H q B. destruct (C77_phase_space s m m P P H q B) as [E _]. rewrite <- E. unfold phsp_twoBody, phsp_FOCUS. f_equal. replace (m - m) with 0 by lra. 
  unfold Rdiv. rewrite !Rmult_0_l. ring.
Qed.
Print Assumptions C77_phsp_twoBody_partial.
(** The two-body phase space of the kMatrix and PALANO shapes leaves out the difference of the two masses: for unequal masses it is not twice
    the momentum over the energy. (It is used for K pi, K eta' and eta eta'.) *)
Theorem C77_phsp_twoBody_refuted : exists s m0 m1 q, 0 <= m0 /\ 0 <= m1 /\ (m0 + m1) * (m0 + m1) < s /\ breakup s m0 m1 q /\
  phsp_twoBody s m0 m1 <> RtoC (2 * q / sqrt s).
Proof.
  assert (R4 : sqrt 4 = 2) by (replace 4 with (2 * 2) by lra; apply sqrt_square; lra). exists 4, 1, 0, (3 / 4). repeat split; try lra.
  - replace (3 / 4 * (3 / 4) + 1 * 1) with (5 / 4 * (5 / 4)) by lra. replace (3 / 4 * (3 / 4) + 0 * 0) with (3 / 4 * (3 / 4)) by lra. rewrite R4.
    rewrite !sqrt_square by lra. lra.
  - unfold phsp_twoBody. replace (1 - (1 + 0) * (1 + 0) / 4) with (3 / 4) by lra. rewrite complex_sqrt_pos by lra. intro A. injection A as A.
    rewrite R4 in A. assert (B : sqrt (3 / 4) * sqrt (3 / 4) = 3 / 4) by (apply sqrt_sqrt; lra). rewrite A in B. lra.
Qed.
Print Assumptions C77_phsp_twoBody_refuted.

(** The production vector: with N poles the background is in it N (N + 1) / 2 times. *)
Theorem C77_pvec_count : forall n a nr s s0 poles k, s <> s0 ->
  pvec n a nr s s0 poles k =
  (over (fun p => total n (fun q => RtoC (a q * couplings p q)) * RtoC (couplings p k) / (pole_s p - RtoC s)) poles +
   RtoC (INR (length poles) * (INR (length poles) + 1) / 2) * total n (fun q => RtoC (a q) * nr k q) * RtoC (1 + s0) / RtoC (s - s0))%C.
Proof.
  intros n a nr s s0 poles k N. unfold pvec. rewrite (pvec_acc n a nr s s0 k poles N). rewrite <- (csum_total n (fun q => RtoC (a q) * nr k q)%C).
  assert (over (resonant n a s k) poles = over (fun p => total n (fun q => RtoC (a q * couplings p q)) * RtoC (couplings p k) / (pole_s p - RtoC s))%C poles) as ->.
  { unfold over, resonant. induction poles as [|p l IH]; [reflexivity|]. cbn [fold_right]. now rewrite IH, csum_total. }
  unfold Cdiv. ring.
Qed.
Print Assumptions C77_pvec_count.
(** With one pole that is the sum of the poles and of one background. *)
Theorem C77_pvec_partial : forall n a nr s s0 p k, s <> s0 ->
  pvec n a nr s s0 (p :: nil) k =
  (total n (fun q => RtoC (a q * couplings p q)) * RtoC (couplings p k) / (pole_s p - RtoC s) + total n (fun q => RtoC (a q) * nr k q) * RtoC (1 + s0) / RtoC (s - s0))%C.
Proof.
  intros n a nr s s0 p k N. rewrite C77_pvec_count by assumption. cbn [length INR over fold_right]. unfold over. cbn [fold_right]. replace (1 * (1 + 1) / 2) with 1 by lra. unfold Cdiv. ring.
Qed.
Print Assumptions C77_pvec_partial.
(** The background of the production vector of the generic K matrix is counted once for the first pole, twice for the second, and so on, as
    its coefficient is accumulated within the loop over the poles: with two poles that do not couple at all it is three times what it
    is with one. *)
Theorem C77_pvec_refuted : exists n a nr s s0 p k, s <> s0 /\
  (forall i, couplings p i = 0) /\ pvec n a nr s s0 (p :: nil) k = RtoC 1 /\ pvec n a nr s s0 (p :: p :: nil) k = RtoC 3.
Proof.
  exists 1%nat, (fun _ => 1), (fun _ _ => RtoC 1), 2, (1 / 2), (Pole (RtoC 5) (fun _ => 0)), 0%nat.
  assert (N : (2 : R) <> 1 / 2) by lra.
  repeat split; [lra| |]; rewrite C77_pvec_count by assumption; unfold over; cbn [length INR total fold_right couplings pole_s].
  - replace (1 * (1 + 1) / 2) with 1 by lra. replace (2 - 1 / 2) with (1 + 1 / 2) by lra. rewrite Rmult_0_r.
    assert (RtoC (1 + 1 / 2) <> RtoC 0) by (intro A; injection A; lra). assert (RtoC 5 - RtoC 2 <> RtoC 0)%C by (rewrite <- RtoC_minus; intro A; injection A; lra). field. split; assumption.
  - replace ((1 + 1) * (1 + 1 + 1) / 2) with 3 by lra. replace (2 - 1 / 2) with (1 + 1 / 2) by lra. rewrite Rmult_0_r.
    assert (RtoC (1 + 1 / 2) <> RtoC 0) by (intro A; injection A; lra). assert (RtoC 5 - RtoC 2 <> RtoC 0)%C by (rewrite <- RtoC_minus; intro A; injection A; lra). field. split; assumption.
Qed.
Print Assumptions C77_pvec_refuted.
