From Coq Require Import Reals Lra List ZArith Lia Factorial.
From Verif.Wigner Require Import Model Spec Sums Proofs.
From Verif.Rotations Require Import Model Spec Matrix.
Import ListNotations.
Local Open Scope R_scope.

Fixpoint usum (n : nat) (f : nat -> R) : R := match n with O => 0 | S k => usum k f + f k end.
Lemma fold_usum n f : fold_left (fun s i => s + f i) (seq 0 n) 0 = usum n f.
Proof. induction n as [|n IH]; [reflexivity|]. rewrite seq_S, fold_left_app, IH. reflexivity. Qed.
Lemma usum_sig N f : sig N f = usum (S N) f.
Proof. induction N as [|N IH]; [cbn; ring|]. change (sig (S N) f) with (sig N f + f (S N)). now rewrite IH. Qed.
Lemma usum_app a m f : usum (a + m) f = usum a f + usum m (fun i => f (a + i)%nat).
Proof. induction m as [|m IH]; [rewrite Nat.add_0_r; cbn; ring|]. rewrite Nat.add_succ_r. cbn. rewrite IH. ring. Qed.
Lemma usum_zero n f : (forall i, (i < n)%nat -> f i = 0) -> usum n f = 0.
Proof. induction n as [|n IH]; intro H; cbn; [reflexivity|]. rewrite IH, H by (auto; intros; apply H; lia). ring. Qed.
Lemma usum_ext n f g : (forall i, (i < n)%nat -> f i = g i) -> usum n f = usum n g.
Proof. induction n as [|n IH]; intro H; cbn; [reflexivity|]. rewrite IH, H by (auto; intros; apply H; lia). ring. Qed.
Lemma usum_scal n c f : usum n (fun i => c * f i) = c * usum n f.
Proof. induction n as [|n IH]; cbn; [ring|]. rewrite IH. ring. Qed.
Lemma window a n N f : (a + n <= S N)%nat -> (forall k, (k <= N)%nat -> (k < a \/ a + n <= k)%nat -> f k = 0) -> sig N f = usum n (fun i => f (a + i)%nat).
Proof.
  intros H Z. rewrite usum_sig. replace (S N) with (a + (n + (S N - a - n)))%nat by lia. rewrite !usum_app. rewrite (usum_zero a) by (intros; apply Z; lia).
  rewrite (usum_zero (S N - a - n)) by (intros; apply Z; lia). ring.
Qed.

Lemma fpow_pow x n : fpow x n = x ^ n.
Proof. induction n as [|n IH]; cbn; [reflexivity|]. rewrite IH. ring. Qed.
Lemma bc_step n r : binomialCoefficient n (S r) = binomialCoefficient n r * (IZR (Z.of_nat n + 1 - Z.of_nat (S r)) / INR (S r)).
Proof. unfold binomialCoefficient. rewrite seq_S, fold_left_app. reflexivity. Qed.
Lemma bc_rf n r : binomialCoefficient n r = F (Z.of_nat n) * rf (Z.of_nat r) * rf (Z.of_nat n - Z.of_nat r).
Proof.
  induction r as [|r IH].
  - cbn [Z.of_nat]. rewrite Z.sub_0_r. rewrite Rmult_assoc, (Rmult_comm (rf 0)), <- Rmult_assoc, F_rf by lia. rewrite rf_pos by lia. unfold F. cbn. unfold binomialCoefficient. cbn. field.
  - rewrite bc_step, IH. rewrite (rf_step' (Z.of_nat r)). replace (Z.of_nat (S r)) with (Z.of_nat r + 1)%Z by lia.
    replace (Z.of_nat n - (Z.of_nat r + 1))%Z with (Z.of_nat n - Z.of_nat r - 1)%Z by lia. rewrite <- (rf_step (Z.of_nat n - Z.of_nat r)).
    replace (Z.of_nat n + 1 - (Z.of_nat r + 1))%Z with (Z.of_nat n - Z.of_nat r)%Z by lia. rewrite INR_IZR_INZ. replace (Z.of_nat (S r)) with (Z.of_nat r + 1)%Z by lia. field. apply IZR_neq. lia.
Qed.
Lemma expanded x n : expandedBinomial x n = (1 + x) ^ n.
Proof.
  unfold expandedBinomial. rewrite (fold_usum (S n) (fun k => binomialCoefficient n k * fpow x k)), <- usum_sig. rewrite Rplus_comm, binom. apply sig_ext. intros k Hk. unfold lin. rewrite bc_rf, fpow_pow, pow1. ring.
Qed.

(** ** Angles *)
Lemma half_cos a : 1 + cos a = (sqrt 2 * cos (a / 2)) ^ 2.
Proof.
  replace a with (2 * (a / 2)) at 1 by field. rewrite cos_2a_cos. replace ((sqrt 2 * cos (a / 2)) ^ 2) with (sqrt 2 * sqrt 2 * (cos (a / 2) * cos (a / 2))) by ring. rewrite sqrt_def by lra. ring.
Qed.
Lemma half_sin a : 1 + - cos a = (sqrt 2 * sin (a / 2)) ^ 2.
Proof.
  replace a with (2 * (a / 2)) at 1 by field. rewrite cos_2a_sin. replace ((sqrt 2 * sin (a / 2)) ^ 2) with (sqrt 2 * sqrt 2 * (sin (a / 2) * sin (a / 2))) by ring. rewrite sqrt_def by lra. ring.
Qed.
Lemma root_sq x : 0 <= x -> root (x ^ 2) = Some x.
Proof. intro H. unfold root. destruct (Rlt_dec (x ^ 2) 0) as [L|L]; [nra|]. f_equal. cbn. rewrite Rmult_1_r. apply sqrt_square, H. Qed.
Lemma two_pow J : (0 <= J)%Z -> Rpower 2 (IZR J / 2) = sqrt 2 ^ Z.to_nat J.
Proof.
  intro H. rewrite <- Rpower_pow by (apply sqrt_lt_R0; lra). rewrite <- Rpower_sqrt by lra. rewrite Rpower_mult. f_equal. rewrite INR_IZR_INZ, Z2Nat.id by exact H. field.
Qed.

Section link.
Context (J M N : Z) (HM : projection J M) (HN : projection J N) (a : R) (Ha : 0 <= a <= PI).
Let c := cos (a / 2).
Let s := sin (a / 2).
Let j := Z.to_nat J.
Let p := ups J M.
Let r := ups J N.
Lemma c_nonneg : 0 <= c.
Proof using Ha. apply cos_ge_0; pose proof PI_RGT_0; lra. Qed.
Lemma s_nonneg : 0 <= s.
Proof using Ha. apply sin_ge_0; pose proof PI_RGT_0; lra. Qed.
Lemma doubles : (J + M = 2 * Z.of_nat p /\ J - M = 2 * Z.of_nat (j - p) /\ J + N = 2 * Z.of_nat r /\ J - N = 2 * Z.of_nat (j - r) /\ J = Z.of_nat j)%Z /\ (p <= j)%nat /\ (r <= j)%nat.
Proof using HM HN.
  destruct HM as [B1 E1], HN as [B2 E2]. unfold p, r, j, ups. rewrite Z.even_spec in E1, E2. destruct E1 as [u U], E2 as [v V].
  assert (Q1 : ((J + M) / 2 = J - u)%Z) by (replace (J + M)%Z with ((J - u) * 2)%Z by lia; apply Z.div_mul; lia).
  assert (Q2 : ((J + N) / 2 = J - v)%Z) by (replace (J + N)%Z with ((J - v) * 2)%Z by lia; apply Z.div_mul; lia). rewrite Q1, Q2. repeat split; lia.
Qed.

Lemma half_odd t : (0 <= t)%Z -> half (2 * t) = Z.odd t.
Proof.
  intro H. unfold half. rewrite Z.rem_mod_nonneg by lia. replace 4%Z with (2 * 2)%Z by reflexivity. rewrite Zmult_mod_distr_l. rewrite Zmod_odd. destruct (Z.odd t); reflexivity.
Qed.
Lemma quot_half t : (0 <= t)%Z -> Z.to_nat (Z.quot (2 * t) 4) = (Z.to_nat t / 2)%nat.
Proof.
  intro H. rewrite Z.quot_div_nonneg by lia. replace 4%Z with (2 * 2)%Z by reflexivity. rewrite Z.div_mul_cancel_l by lia. rewrite Z2Nat.inj_div by lia. reflexivity.
Qed.
Lemma odd_pow x n : x ^ n = (if Nat.odd n then x else 1) * (x ^ 2) ^ (n / 2).
Proof.
  rewrite <- pow_mult. pose proof (Nat.div_mod_eq n 2) as D. destruct (Nat.odd n) eqn:O.
  - apply Nat.odd_spec in O. destruct O as [k K]. assert (n / 2 = k)%nat by (rewrite K, Nat.mul_comm, Nat.div_add_l by lia; cbn; lia). rewrite H. rewrite K. rewrite pow_add. ring.
  - assert (E : Nat.even n = true) by (rewrite <- Nat.negb_odd, O; reflexivity). apply Nat.even_spec in E. destruct E as [k K]. assert (n / 2 = k)%nat by (rewrite K, Nat.mul_comm, Nat.div_mul by lia; reflexivity). rewrite H. rewrite K. ring.
Qed.
Lemma z_odd t : (0 <= t)%Z -> Nat.odd (Z.to_nat t) = Z.odd t.
Proof. intro H. rewrite <- (Z2Nat.id t) at 2 by exact H. rewrite <- Nat.negb_even, <- Z.negb_even. f_equal. symmetry. apply even_nat. Qed.
Lemma sgn_sg n : IZR (sgn n) = sg n.
Proof. unfold sgn, sg. destruct (Nat.even n); reflexivity. Qed.
Lemma neg_pow x n : (- x) ^ n = sg n * x ^ n.
Proof. induction n as [|n IH]; [unfold sg; cbn; ring|]. cbn. rewrite IH, sg_S. ring. Qed.
Lemma fact2_nat n : IZR (fact2 (2 * Z.of_nat n)) = F (Z.of_nat n).
Proof. rewrite fact2_F. f_equal. rewrite Z.mul_comm. apply Z.div_mul. lia. Qed.

Lemma fractional A B : let f := if (Nat.odd A && negb (Nat.odd B))%bool then root (1 + cos a) else if (negb (Nat.odd A) && Nat.odd B)%bool then root (1 - cos a)
    else if (Nat.odd A && Nat.odd B)%bool then root (1 - cos a * cos a) else Some 1 in
  f = Some ((if Nat.odd A then sqrt 2 * c else 1) * (if Nat.odd B then sqrt 2 * s else 1)).
Proof using Ha.
  pose proof c_nonneg as C0. pose proof s_nonneg as S0. fold c in C0. fold s in S0. assert (T0 : 0 <= sqrt 2) by apply sqrt_pos. cbv zeta.
  assert (P1 : 0 <= sqrt 2 * c) by nra. assert (P2 : 0 <= sqrt 2 * s) by nra.
  destruct (Nat.odd A), (Nat.odd B); cbn [andb negb].
  - replace (1 - cos a * cos a) with ((1 + cos a) * (1 + - cos a)) by ring. rewrite half_cos, half_sin. fold c s. rewrite <- Rpow_mult_distr. apply root_sq. nra.
  - rewrite half_cos. fold c. rewrite root_sq by exact P1. f_equal. ring.
  - replace (1 - cos a) with (1 + - cos a) by ring. rewrite half_sin. fold s. rewrite root_sq by exact P2. f_equal. ring.
  - f_equal. ring.
Qed.

Lemma link : wigner_d (cos a) J M N = Some (nd j c s p r).
Proof using HM HN Ha.
  destruct doubles as ((D1 & D2 & D3 & D4 & D5) & Lp & Lr). fold p r j in D1, D2, D3, D4, D5, Lp, Lr.
  set (q := (Z.of_nat p + Z.of_nat r - Z.of_nat j)%Z). assert (Q : (M + N = 2 * q)%Z) by lia.
  unfold wigner_d. assert (E1 : Z.even (J + M) = true) by (rewrite D1; apply Z.even_spec; exists (Z.of_nat p); reflexivity). rewrite E1, Q.
  replace (2 * q / 2)%Z with q by (rewrite Z.mul_comm, Z.div_mul by lia; reflexivity).
  replace (Z.quot (Z.min (J + M) (J + N)) 2) with (Z.of_nat (Nat.min p r)) by (replace (Z.min (J + M) (J + N)) with (Z.of_nat (Nat.min p r) * 2)%Z by lia; rewrite Z.quot_mul by lia; reflexivity).
  set (km := Z.max 0 q). set (m := Z.to_nat km). assert (Em : km = Z.of_nat m) by lia. assert (Qm : (q <= km)%Z) by lia.
  assert (Bm : (km <= Z.of_nat (Nat.min p r))%Z) by lia.
  set (n := Z.to_nat (Z.of_nat (Nat.min p r) - km + 1)). assert (En : (m + n = S (Nat.min p r))%nat) by lia.
  replace (4 * km - 2 * q)%Z with (2 * (2 * km - q))%Z by lia. replace (2 * J + 2 * q - 4 * km)%Z with (2 * (J + q - 2 * km))%Z by lia. rewrite !half_odd by lia.
  set (A0 := Z.to_nat (2 * km - q)). set (B0 := Z.to_nat (J + q - 2 * km)). rewrite <- !z_odd by lia. fold A0 B0. pose proof (fractional A0 B0) as Fr. cbv zeta in Fr. rewrite Fr. cbn [option_map]. f_equal. clear Fr.
  set (fr := (if Nat.odd A0 then sqrt 2 * c else 1) * (if Nat.odd B0 then sqrt 2 * s else 1)).
  assert (W : IZR (fact2 (J + M) * fact2 (J - M) * fact2 (J + N) * fact2 (J - N)) = nf j p * nf j r).
  { rewrite !mult_IZR, D1, D2, D3, D4, !fact2_nat. unfold nf. ring. }
  rewrite W. rewrite nd_formula by exact Lp. rewrite two_pow by lia. fold j.
  rewrite D1. replace (2 * Z.of_nat p / 2)%Z with (Z.of_nat p) by (rewrite Z.mul_comm, Z.div_mul by lia; reflexivity). rewrite even_nat. change (if Nat.even p then 1 else -1) with (sg p).
  rewrite (fold_usum n (fun i => _)).
  rewrite (window m n r); [|lia|].
  - rewrite <- !usum_scal. apply usum_ext. intros i Hi. rewrite Em. replace (Z.of_nat m + Z.of_nat i)%Z with (Z.of_nat (m + i)) by lia. set (k := (m + i)%nat). assert (Hk : (m <= k)%nat /\ (k <= p)%nat /\ (k <= r)%nat) by lia.
    replace (2 * Z.of_nat p - 2 * Z.of_nat k)%Z with (2 * Z.of_nat (p - k))%Z by lia. rewrite D3. replace (2 * Z.of_nat r - 2 * Z.of_nat k)%Z with (2 * Z.of_nat (r - k))%Z by lia.
    assert (kq : (q <= Z.of_nat k)%Z) by lia. replace (2 * Z.of_nat k - M - N)%Z with (2 * Z.of_nat (Z.to_nat (Z.of_nat k - q)))%Z by lia.
    rewrite !mult_IZR, !fact2_nat. rewrite Nat2Z.id, sgn_sg.
    replace (4 * Z.of_nat k - 2 * q)%Z with (2 * (2 * Z.of_nat k - q))%Z by lia. replace (2 * J + 2 * q - 4 * Z.of_nat k)%Z with (2 * (J + q - 2 * Z.of_nat k))%Z by lia. rewrite !quot_half by lia.
    set (A := Z.to_nat (2 * Z.of_nat k - q)). set (B := Z.to_nat (J + q - 2 * Z.of_nat k)). rewrite !expanded, half_cos, half_sin. fold c s.
    assert (OA : Nat.odd A0 = Nat.odd A).
    { unfold A0, A. rewrite !z_odd by lia. replace (2 * Z.of_nat k - q)%Z with (2 * km - q + 2 * Z.of_nat i)%Z by lia. rewrite Z.odd_add, Z.odd_mul. cbn [Z.odd andb]. now rewrite Bool.xorb_false_r. }
    assert (OB : Nat.odd B0 = Nat.odd B).
    { unfold B0, B. rewrite !z_odd by lia. replace (J + q - 2 * km)%Z with (J + q - 2 * Z.of_nat k + 2 * Z.of_nat i)%Z by lia. rewrite Z.odd_add, Z.odd_mul. cbn [Z.odd andb]. now rewrite Bool.xorb_false_r. }
    assert (X : fr * (((sqrt 2 * c) ^ 2) ^ (A / 2) * ((sqrt 2 * s) ^ 2) ^ (B / 2)) = sqrt 2 ^ j * (c ^ A * s ^ B)).
    { unfold fr. rewrite OA, OB. transitivity ((sqrt 2 * c) ^ A * (sqrt 2 * s) ^ B); [rewrite (odd_pow (sqrt 2 * c) A), (odd_pow (sqrt 2 * s) B); ring|]. rewrite !Rpow_mult_distr. replace j with (A + B)%nat by lia. rewrite pow_add. ring. }
    clearbody fr. rewrite !rf_pos by lia. rewrite (neg_pow s (p - k)). rewrite sg_sub by lia.
    replace (c ^ k * (sg p * sg k * s ^ (p - k)) * s ^ (r - k) * c ^ (j - p - (r - k))) with (sg p * sg k * (c ^ A * s ^ B)).
    2:{ replace A with (k + (j - p - (r - k)))%nat by lia. replace B with ((p - k) + (r - k))%nat by lia. rewrite !pow_add. ring. }
    replace (Z.of_nat (Z.to_nat (Z.of_nat k - q))) with (Z.of_nat j - Z.of_nat p - Z.of_nat r + Z.of_nat k)%Z by lia. replace (Z.of_nat (p - k)) with (Z.of_nat p - Z.of_nat k)%Z by lia. replace (Z.of_nat (r - k)) with (Z.of_nat r - Z.of_nat k)%Z by lia.
    assert (T : sqrt 2 ^ j <> 0) by (apply pow_nonzero; pose proof (sqrt_lt_R0 2 Rlt_0_2); lra).
    set (u := ((sqrt 2 * c) ^ 2) ^ (A / 2)) in *. set (v := ((sqrt 2 * s) ^ 2) ^ (B / 2)) in *. set (w := sqrt (nf j p * nf j r)).
    set (f1 := F (Z.of_nat k)). set (f2 := F (Z.of_nat p - Z.of_nat k)). set (f3 := F (Z.of_nat r - Z.of_nat k)). set (f4 := F (Z.of_nat j - Z.of_nat p - Z.of_nat r + Z.of_nat k)).
    assert (N1 : f1 <> 0) by apply F_neq. assert (N2 : f2 <> 0) by apply F_neq. assert (N3 : f3 <> 0) by apply F_neq. assert (N4 : f4 <> 0) by apply F_neq.
    transitivity (sg p * sg k * w / (f1 * f2 * f3 * f4) * ((fr * (u * v)) / sqrt 2 ^ j)); [field; repeat split; assumption|]. rewrite X. field. repeat split; assumption.
  - intros k Hk [L|L].
    + rewrite (rf_neg (Z.of_nat j - Z.of_nat p - Z.of_nat r + Z.of_nat k)) by lia. ring.
    + destruct (Nat.lt_ge_cases p k) as [L'|L']; [rewrite (rf_neg (Z.of_nat p - Z.of_nat k)) by lia; ring|]. lia.
Qed.
End link.

(** ** The statements *)
Lemma sum_all J f : (0 <= J)%Z -> sum_over (all_projections J) f = sig (Z.to_nat J) (fun i => f (- J + 2 * Z.of_nat i)%Z).
Proof. intro H. unfold all_projections. rewrite sum_map. rewrite <- (sum_sig (Z.to_nat J) (fun i => f (- J + 2 * i)%Z)). rewrite sum_map. reflexivity. Qed.
Lemma projection_of J i : (i <= Z.to_nat J)%nat -> (0 <= J)%Z -> projection J (- J + 2 * Z.of_nat i) /\ ups J (- J + 2 * Z.of_nat i) = i /\ ups J (- (- J + 2 * Z.of_nat i)) = (Z.to_nat J - i)%nat.
Proof.
  intros H H0. repeat split; try lia.
  - apply Z.even_spec. exists (J - Z.of_nat i)%Z. lia.
  - unfold ups. replace (J + (- J + 2 * Z.of_nat i))%Z with (Z.of_nat i * 2)%Z by lia. rewrite Z.div_mul by lia. apply Nat2Z.id.
  - unfold ups. replace (J + - (- J + 2 * Z.of_nat i))%Z with ((J - Z.of_nat i) * 2)%Z by lia. rewrite Z.div_mul by lia. lia.
Qed.
Lemma of_projection J M : projection J M -> (0 <= J)%Z /\ (ups J M <= Z.to_nat J)%nat /\ M = (- J + 2 * Z.of_nat (ups J M))%Z /\ ups J (- M) = (Z.to_nat J - ups J M)%nat.
Proof.
  intro H. destruct (doubles J M M H H) as ((D1 & D2 & _ & _ & D5) & L & _). assert (H0 : (0 <= J)%Z) by lia. repeat split; try lia.
  assert (E : M = (- J + 2 * Z.of_nat (ups J M))%Z) by lia. rewrite E at 1. apply projection_of; assumption.
Qed.
Lemma state_nf J M x y : projection J M -> state J M x y = x ^ ups J M * y ^ (Z.to_nat J - ups J M) / sqrt (nf (Z.to_nat J) (ups J M)).
Proof. intro H. destruct (of_projection J M H) as (_ & _ & _ & E). unfold state, nf, F. rewrite E, !Nat2Z.id. reflexivity. Qed.
Lemma rotates_nd J M a d : projection J M -> rotates J M a d <-> forall i, (i <= Z.to_nat J)%nat -> d (- J + 2 * Z.of_nat i)%Z = nd (Z.to_nat J) (cos (a / 2)) (sin (a / 2)) (ups J M) i.
Proof.
  intro H. destruct (of_projection J M H) as (H0 & L & E & _). set (j := Z.to_nat J) in *. set (p := ups J M) in *.
  assert (Q : forall x y, sum_over (all_projections J) (fun N => d N * state J N x y) = sig j (fun i => d (- J + 2 * Z.of_nat i)%Z / sqrt (nf j i) * x ^ i * y ^ (j - i))).
  { intros x y. rewrite sum_all by exact H0. apply sig_ext. intros i Hi. destruct (projection_of J i Hi H0) as (P & U & _). rewrite state_nf by exact P. rewrite U. fold j. unfold Rdiv. ring. }
  assert (Q2 : forall x y, state J M (fst (turn a x y)) (snd (turn a x y)) = sig j (fun r => nd j (cos (a / 2)) (sin (a / 2)) p r / sqrt (nf j r) * x ^ r * y ^ (j - r))).
  { intros x y. rewrite state_nf by exact H. cbn [turn fst snd]. fold j p. rewrite nd_expansion by exact L. apply sig_ext. intros i _. unfold Rdiv. ring. }
  split.
  - intros R i Hi. assert (X : d (- J + 2 * Z.of_nat i)%Z / sqrt (nf j i) = nd j (cos (a / 2)) (sin (a / 2)) p i / sqrt (nf j i)).
    + apply (poly_unique j (fun i => d (- J + 2 * Z.of_nat i)%Z / sqrt (nf j i)) (fun i => nd j (cos (a / 2)) (sin (a / 2)) p i / sqrt (nf j i))); [|exact Hi]. intros x y. rewrite <- Q, <- Q2. symmetry. apply R.
    + pose proof (sq_pos j i). apply (Rmult_eq_reg_r (/ sqrt (nf j i))); [exact X|]. apply Rinv_neq_0_compat. lra.
  - intros R x y. rewrite Q, Q2. apply sig_ext. intros i Hi. rewrite R by exact Hi. reflexivity.
Qed.
Lemma rotation J M a : projection J M -> 0 <= a <= PI ->
  (forall N, projection J N -> exists v, wigner_d (cos a) J M N = Some v) /\
  (forall d, rotates J M a d <-> forall N, projection J N -> wigner_d (cos a) J M N = Some (d N)).
Proof.
  intros H Ha. split; [intros N HN; eexists; apply link; assumption|]. intro d. rewrite rotates_nd by exact H. destruct (of_projection J M H) as (H0 & _). split.
  - intros R N HN. rewrite link by assumption. destruct (of_projection J N HN) as (_ & L & E & _). f_equal. rewrite <- R by exact L. now rewrite <- E.
  - intros R i Hi. destruct (projection_of J i Hi H0) as (P & U & _). pose proof (R _ P) as E. rewrite link in E by assumption. rewrite U in E. congruence.
Qed.
Lemma value_link J M N a : projection J M -> projection J N -> 0 <= a <= PI -> value (wigner_d (cos a) J M N) = nd (Z.to_nat J) (cos (a / 2)) (sin (a / 2)) (ups J M) (ups J N).
Proof. intros. now rewrite link. Qed.
Lemma ups_eq J M N : projection J M -> projection J N -> Nat.eqb (ups J M) (ups J N) = Z.eqb M N.
Proof.
  intros H H'. destruct (of_projection J M H) as (_ & _ & E & _), (of_projection J N H') as (_ & _ & E' & _). destruct (Nat.eqb_spec (ups J M) (ups J N)) as [Q|Q], (Z.eqb_spec M N) as [Q'|Q']; try reflexivity; [|subst; congruence].
  exfalso. apply Q'. rewrite E, E'. congruence.
Qed.
Lemma orthonormal_d J M M' a : projection J M -> projection J M' -> 0 <= a <= PI ->
  sum_over (all_projections J) (fun N => value (wigner_d (cos a) J M N) * value (wigner_d (cos a) J M' N)) = if Z.eqb M M' then 1 else 0.
Proof.
  intros H H' Ha. destruct (of_projection J M H) as (H0 & L & _), (of_projection J M' H') as (_ & L' & _). rewrite sum_all by exact H0.
  rewrite (sig_ext _ _ (fun r => nd (Z.to_nat J) (cos (a / 2)) (sin (a / 2)) (ups J M) r * nd (Z.to_nat J) (cos (a / 2)) (sin (a / 2)) (ups J M') r)).
  - rewrite nd_orthonormal; [|pose proof (sin2_cos2 (a / 2)) as S2; unfold Rsqr in S2; lra|exact L|exact L']. now rewrite ups_eq.
  - intros i Hi. destruct (projection_of J i Hi H0) as (P & U & _). rewrite !value_link by assumption. now rewrite U.
Qed.
Lemma compose_d J M N a b : projection J M -> projection J N -> 0 <= a -> 0 <= b -> a + b <= PI ->
  value (wigner_d (cos (a + b)) J M N) = sum_over (all_projections J) (fun K => value (wigner_d (cos a) J M K) * value (wigner_d (cos b) J K N)).
Proof.
  intros H H' Ha Hb Hab. destruct (of_projection J M H) as (H0 & L & _), (of_projection J N H') as (_ & L' & _). rewrite sum_all by exact H0. rewrite value_link by (auto; lra).
  replace ((a + b) / 2) with (a / 2 + b / 2) by field. rewrite cos_plus, sin_plus.
  replace (sin (a / 2) * cos (b / 2) + cos (a / 2) * sin (b / 2)) with (cos (a / 2) * sin (b / 2) + sin (a / 2) * cos (b / 2)) by ring.
  rewrite nd_compose by assumption. apply sig_ext. intros i Hi. destruct (projection_of J i Hi H0) as (P & U & _). rewrite !value_link by (auto; lra). now rewrite U.
Qed.
Lemma identity_d J M N : projection J M -> projection J N -> wigner_d 1 J M N = Some (if Z.eqb M N then 1 else 0).
Proof.
  intros H H'. destruct (of_projection J M H) as (H0 & L & _), (of_projection J N H') as (_ & L' & _). rewrite <- cos_0 at 1. rewrite link by (auto; pose proof PI_RGT_0; lra).
  replace (0 / 2) with 0 by field. rewrite cos_0, sin_0, nd_identity by assumption. now rewrite ups_eq.
Qed.
Lemma nd_neg J c s p r : (p <= J)%nat -> nd J c (- s) p r = sg p * sg r * nd J c s p r.
Proof.
  intros Hp. rewrite !nd_formula by assumption. rewrite (Rmult_comm (sg p * sg r)), Rmult_assoc. f_equal. rewrite Rmult_comm, <- sig_scal. apply sig_ext. intros k Hk.
  destruct (Nat.lt_ge_cases p k) as [L|L]; [rewrite (rf_neg (Z.of_nat p - Z.of_nat k)) by lia; ring|]. rewrite Ropp_involutive, !neg_pow, !sg_sub by assumption. pose proof (sg_sq k) as S1. pose proof (sg_sq p) as S2.
  set (X := rf (Z.of_nat k) * rf (Z.of_nat p - Z.of_nat k) * rf (Z.of_nat r - Z.of_nat k) * rf (Z.of_nat J - Z.of_nat p - Z.of_nat r + Z.of_nat k)).
  transitivity (sg r * sg k * X * (c ^ k * s ^ (p - k) * s ^ (r - k) * c ^ (J - p - (r - k)))); [unfold X; ring|].
  transitivity ((sg p * sg p) * sg r * sg k * X * (c ^ k * s ^ (p - k) * s ^ (r - k) * c ^ (J - p - (r - k)))); [rewrite S2; ring|unfold X; ring].
Qed.
Lemma transpose_d J M N a : projection J M -> projection J N -> 0 <= a <= PI -> value (wigner_d (cos a) J N M) = phase (M - N) * value (wigner_d (cos a) J M N).
Proof.
  intros H H' Ha. destruct (of_projection J M H) as (H0 & L & E & _), (of_projection J N H') as (_ & L' & E' & _). rewrite !value_link by assumption. rewrite <- nd_transpose by assumption. rewrite nd_neg by exact L. f_equal.
  unfold phase. replace ((M - N) / 2)%Z with (Z.of_nat (ups J M) - Z.of_nat (ups J N))%Z.
  2:{ replace (M - N)%Z with ((Z.of_nat (ups J M) - Z.of_nat (ups J N)) * 2)%Z by lia. rewrite Z.div_mul by lia. reflexivity. }
  unfold sg. rewrite Z.even_sub, !even_nat. destruct (Nat.even (ups J M)), (Nat.even (ups J N)); cbn; ring.
Qed.
Lemma outside J M N cb : (0 <= J)%Z -> Z.even (J - M) = true -> Z.even (J - N) = true -> ~ (projection J M /\ projection J N) -> -1 <= cb <= 1 -> wigner_d cb J M N = Some 0.
Proof.
  intros H0 E1 E2 O Hc. assert (O' : (J < M \/ M < - J \/ J < N \/ N < - J)%Z).
  { destruct (Z_lt_dec J M); [lia|]. destruct (Z_lt_dec M (- J)); [lia|]. destruct (Z_lt_dec J N); [lia|]. destruct (Z_lt_dec N (- J)); [lia|]. exfalso. apply O. split; split; (assumption || lia). }
  clear O. rewrite Z.even_spec in E1, E2. destruct E1 as [u U], E2 as [v V]. unfold wigner_d.
  replace (Z.even (J + M)) with true by (symmetry; apply Z.even_spec; exists (J - u)%Z; lia).
  replace (M + N)%Z with (2 * (J - u - v))%Z by lia. replace ((2 * (J - u - v)) / 2)%Z with (J - u - v)%Z by (rewrite Z.mul_comm, Z.div_mul by lia; reflexivity).
  replace (Z.quot (Z.min (J + M) (J + N)) 2) with (J - Z.max u v)%Z by (replace (Z.min (J + M) (J + N)) with ((J - Z.max u v) * 2)%Z by lia; rewrite Z.quot_mul by lia; reflexivity).
  replace (Z.to_nat (J - Z.max u v - Z.max 0 (J - u - v) + 1)) with O by lia. cbn [seq fold_left].
  assert (R : forall x, 0 <= x -> root x = Some (sqrt x)) by (intros x X; unfold root; destruct (Rlt_dec x 0); [lra|reflexivity]).
  match goal with |- option_map ?g ?f = _ => assert (Q : exists y, f = Some y) end.
  { destruct (_ && _)%bool; [eexists; apply R; lra|]. destruct (_ && _)%bool; [eexists; apply R; lra|]. destruct (_ && _)%bool; [eexists; apply R; nra|]. eexists; reflexivity. }
  destruct Q as [y ->]. cbn [option_map]. f_equal. ring.
Qed.
