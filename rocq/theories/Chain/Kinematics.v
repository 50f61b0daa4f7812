(** One node: two-body decay, boosts, sampling. *)
From Coq Require Import Reals Ratan List Lra Lia Psatz.
From Verif.Common Require Import Prelude.
From Verif.Phsp Require Import Model Spec Proofs.
From Verif.Chain Require Import Model Spec.
Import ListNotations.
Local Open Scope R_scope.

(** *** The boost *)
Lemma boost_plus a b nx ny nz g vg : boost (plus4 a b) nx ny nz g vg = plus4 (boost a nx ny nz g vg) (boost b nx ny nz g vg).
Proof. destruct a as [[[? ?] ?] ?], b as [[[? ?] ?] ?]; unfold boost, plus4. apply quad_eq; ring. Qed.

Lemma boost_zero nx ny nz g vg : boost (0, 0, 0, 0) nx ny nz g vg = (0, 0, 0, 0).
Proof. unfold boost. apply quad_eq; ring. Qed.

Lemma total_boost l nx ny nz g vg : total (map (fun p => boost p nx ny nz g vg) l) = boost (total l) nx ny nz g vg.
Proof.
  induction l as [|p l IH]; cbn [map]; [symmetry; apply boost_zero|].
  change (plus4 (boost p nx ny nz g vg) (total (map (fun p => boost p nx ny nz g vg) l)) = boost (plus4 p (total l)) nx ny nz g vg).
  rewrite IH, boost_plus; reflexivity.
Qed.

Lemma boost_mass p nx ny nz g vg : nx * nx + ny * ny + nz * nz = 1 -> g * g - vg * vg = 1 -> mass2 (boost p nx ny nz g vg) = mass2 p.
Proof.
  destruct p as [[[x y] z] e]; unfold boost, mass2; intros Nn G.
  set (t := x * nx + y * ny + z * nz). set (c := (g - 1) * t + vg * e).
  transitivity ((g * e + vg * t) * (g * e + vg * t) - (x * x + y * y + z * z) - 2 * c * t - c * c * (nx * nx + ny * ny + nz * nz)); [unfold t; ring|].
  rewrite Nn. unfold c.
  transitivity (e * e * (g * g - vg * vg) - (x * x + y * y + z * z) - t * t * (g * g - vg * vg) + t * t); [ring|]. rewrite G; ring.
Qed.

Lemma boost_energy p nx ny nz g vg : nx * nx + ny * ny + nz * nz = 1 -> g * g - vg * vg = 1 -> 0 <= g -> 0 <= vg ->
  0 <= mass2 p -> 0 <= energy p -> 0 <= energy (boost p nx ny nz g vg).
Proof.
  destruct p as [[[x y] z] e]; unfold boost, mass2, energy; cbn [snd]; intros Nn G G0 V0 M E.
  set (t := x * nx + y * ny + z * nz).
  assert (T : t * t <= x * x + y * y + z * z).
  { assert (X : (x * x + y * y + z * z) * (nx * nx + ny * ny + nz * nz) - t * t
                = (x * ny - y * nx) * (x * ny - y * nx) + (x * nz - z * nx) * (x * nz - z * nx) + (y * nz - z * ny) * (y * nz - z * ny)) by (unfold t; ring).
    rewrite Nn, Rmult_1_r in X. clearbody t.
    pose proof (Rle_0_sqr (x * ny - y * nx)). pose proof (Rle_0_sqr (x * nz - z * nx)). pose proof (Rle_0_sqr (y * nz - z * ny)). unfold Rsqr in *. lra. }
  clearbody t. assert (- e <= t) by nra. assert (vg <= g) by nra. nra.
Qed.

(** *** Two bodies *)
Lemma rho_radicand s sl sr : 0 < s -> 0 <= sl -> 0 <= sr -> s * rho_2 s sl sr = radicand (sqrt s) (sqrt sl) (sqrt sr).
Proof.
  intros. unfold radicand, rho_2.
  pose proof (sqrt_sqrt s ltac:(lra)) as A. pose proof (sqrt_sqrt sl H0) as B. pose proof (sqrt_sqrt sr H1) as C.
  replace (sqrt s * sqrt s - 2 * sqrt sl * sqrt sl - 2 * sqrt sr * sqrt sr) with (s - 2 * sl - 2 * sr) by (rewrite !Rmult_assoc, A, B, C; ring).
  rewrite A, B, C. field. lra.
Qed.

Lemma above_threshold s sl sr : 0 <= sl -> 0 <= sr -> sl + sr + 2 * sqrt (sl * sr) < s -> 0 < s /\ sqrt sl + sqrt sr < sqrt s.
Proof.
  intros A B C. rewrite sqrt_mult in C by auto. pose proof (sqrt_pos sl). pose proof (sqrt_pos sr).
  assert (S0 : 0 < s) by nra. split; auto.
  pose proof (sqrt_sqrt sl A). pose proof (sqrt_sqrt sr B). pose proof (sqrt_sqrt s ltac:(lra)). pose proof (sqrt_pos s).
  destruct (Rlt_dec (sqrt sl + sqrt sr) (sqrt s)); auto. exfalso. nra.
Qed.

(** The momentum and the two energies of lines 326-333. *)
Lemma decay_energies s sl sr : 0 <= sl -> 0 <= sr -> sl + sr + 2 * sqrt (sl * sr) < s ->
  let p := 5 / 10 * sqrt (s * rho_2 s sl sr) in 0 <= p /\ sqrt (sl + p * p) + sqrt (sr + p * p) = sqrt s.
Proof.
  intros A B C p. destruct (above_threshold s sl sr A B C) as [S0 T].
  pose proof (sqrt_pos sl) as Pl. pose proof (sqrt_pos sr) as Pr. pose proof (sqrt_lt_R0 s S0) as Ps.
  assert (Bk : breakup p (sqrt s) (sqrt sl) (sqrt sr)).
  { apply q_breakup; auto; [lra|]. rewrite q_some by lra. unfold p. rewrite rho_radicand by lra. reflexivity. }
  split; [apply Bk|].
  replace (sl + p * p) with (p * p + sqrt sl * sqrt sl) by (rewrite sqrt_sqrt by auto; ring).
  replace (sr + p * p) with (p * p + sqrt sr * sqrt sr) by (rewrite sqrt_sqrt by auto; ring).
  rewrite (breakup_left p (sqrt s) (sqrt sl) (sqrt sr)), (breakup_right p (sqrt s) (sqrt sl) (sqrt sr)) by (auto; lra). field. lra.
Qed.

Lemma boost_rest s p nx ny nz : 0 < s -> 0 <= p ->
  boost (0, 0, 0, sqrt s) nx ny nz (sqrt (1 + p * p / s)) (p / sqrt s) = (p * nx, p * ny, p * nz, sqrt (s + p * p))
  /\ sqrt (1 + p * p / s) * sqrt (1 + p * p / s) - p / sqrt s * (p / sqrt s) = 1 /\ 0 <= sqrt (1 + p * p / s) /\ 0 <= p / sqrt s.
Proof.
  intros S0 P. pose proof (sqrt_lt_R0 s S0) as Ps. pose proof (sqrt_sqrt s ltac:(lra)) as E.
  assert (X : 0 <= p * p / s) by (apply Rmult_le_pos; [nra|left; apply Rinv_0_lt_compat; auto]).
  split; [|split; [|split]].
  - unfold boost. apply quad_eq; try (field; lra).
    replace (s + p * p) with ((1 + p * p / s) * s) by (field; lra). rewrite sqrt_mult by lra. ring.
  - rewrite sqrt_sqrt by lra. replace (p / sqrt s * (p / sqrt s)) with (p * p / (sqrt s * sqrt s)) by (field; lra). rewrite E. field. lra.
  - apply sqrt_pos.
  - apply Rmult_le_pos; auto. left; apply Rinv_0_lt_compat; auto.
Qed.

(** *** The ceiling of the weight *)
Lemma diff_sq a b s : 0 <= a -> 0 <= b -> a + b <= s -> (a - b) * (a - b) <= (a + b) * s.
Proof. intros. assert ((a - b) * (a - b) <= (a + b) * (a + b)) by nra. nra. Qed.
Lemma rho_num a b s s' : 0 <= a -> 0 <= b -> a + b <= s -> s <= s' -> 0 <= 2 * (a + b) * (s * s') - (a - b) * (a - b) * (s + s').
Proof.
  intros. pose proof (diff_sq a b s). pose proof (diff_sq a b s'). 
  assert ((a - b) * (a - b) * s' <= (a + b) * s * s') by (apply Rmult_le_compat_r; lra).
  assert ((a - b) * (a - b) * s <= (a + b) * s' * s) by (apply Rmult_le_compat_r; lra). lra.
Qed.
Lemma rho_mono s s' sl sl' sr sr' : 0 <= sl' <= sl -> 0 <= sr' <= sr -> sl + sr + 2 * sqrt (sl * sr) < s -> s <= s' ->
  0 < rho_2 s sl sr <= rho_2 s' sl' sr'.
Proof.
  intros A B C D. destruct (above_threshold s sl sr ltac:(lra) ltac:(lra) C) as [S0 T].
  pose proof (sqrt_pos sl). pose proof (sqrt_pos sr). pose proof (sqrt_lt_R0 s S0).
  assert (Pos : 0 < s * rho_2 s sl sr) by (rewrite rho_radicand by lra; apply radicand_pos; lra).
  assert (P : 0 < rho_2 s sl sr) by nra. split; auto.
  assert (Tt : sl + sr < s) by (pose proof (sqrt_pos (sl * sr)); lra).
  (* in s *)
  assert (X1 : rho_2 s sl sr <= rho_2 s' sl sr).
  { assert (E : rho_2 s' sl sr - rho_2 s sl sr = (s' - s) * (2 * (sl + sr) * (s * s') - (sl - sr) * (sl - sr) * (s + s')) / (s * s * (s' * s'))).
    { unfold rho_2. field. lra. }
    assert (0 <= rho_2 s' sl sr - rho_2 s sl sr); [|lra]. rewrite E.
    apply Rmult_le_pos; [|left; apply Rinv_0_lt_compat; clear - S0 D; repeat apply Rmult_lt_0_compat; lra].
    apply Rmult_le_pos; [lra|]. apply rho_num; lra. }
  (* in the first *)
  assert (X2 : rho_2 s' sl sr <= rho_2 s' sl' sr).
  { assert (E : rho_2 s' sl' sr - rho_2 s' sl sr = (sl - sl') * (2 * s' - (sl + sl') + 2 * sr) / (s' * s')).
    { unfold rho_2. field. lra. }
    assert (0 <= rho_2 s' sl' sr - rho_2 s' sl sr); [|lra]. rewrite E.
    apply Rmult_le_pos; [|left; apply Rinv_0_lt_compat; clear - S0 D; repeat apply Rmult_lt_0_compat; lra]. apply Rmult_le_pos; lra. }
  assert (X3 : rho_2 s' sl' sr <= rho_2 s' sl' sr').
  { assert (E : rho_2 s' sl' sr' - rho_2 s' sl' sr = (sr - sr') * (2 * s' - (sr + sr') + 2 * sl') / (s' * s')).
    { unfold rho_2. field. lra. }
    assert (0 <= rho_2 s' sl' sr' - rho_2 s' sl' sr); [|lra]. rewrite E.
    apply Rmult_le_pos; [|left; apply Rinv_0_lt_compat; clear - S0 D; repeat apply Rmult_lt_0_compat; lra]. apply Rmult_le_pos; lra. }
  lra.
Qed.

(** *** Sampling *)
(** A node as Node::set leaves it. *)
Definition set_up (n : node) : Prop :=
  match ty n with
  | BW => 0 < bwMass n * bwWidth n /\ lo n <= hi n /\ plo n = atan ((lo n - bwMass n * bwMass n) / (bwMass n * bwWidth n))
          /\ phi n = atan ((hi n - bwMass n * bwMass n) / (bwMass n * bwWidth n))
  | Flat => lo n <= hi n
  | QuasiStable => lo n = hi n
  end.

Lemma atan_le x y : x <= y -> atan x <= atan y.
Proof. intros [H| ->]; [left; apply atan_increasing; auto|right; reflexivity]. Qed.

Lemma tan_le_inv a b : - (PI / 2) < a -> a <= b -> b < PI / 2 -> tan a <= tan b.
Proof. intros A [B| ->] C; [left; apply tan_increasing; lra|right; reflexivity]. Qed.

Lemma sample_bw n v s : set_up n -> ty n = BW -> 0 <= v <= 1 -> sample n v = Some s ->
  s = bwMass n * bwMass n + bwMass n * bwWidth n * tan (plo n + (phi n - plo n) * v).
Proof.
  unfold set_up, sample. intros SU T V E. rewrite T in *. destruct SU as (G & L & P & Q).
  set (m := bwMass n) in *. set (mG := m * bwWidth n) in *.
  destruct (Req_EM_T (cos ((phi n - plo n) * v)) 0) as [|C]; [discriminate|].
  match type of E with context [Req_EM_T ?x 0] => destruct (Req_EM_T x 0) as [|D] end; [discriminate|]. injection E as <-.
  set (d := (phi n - plo n) * v) in *. set (t1 := (lo n - m * m) / mG) in *.
  assert (Rg : plo n <= plo n + d <= phi n).
  { assert (plo n <= phi n). { rewrite P, Q. apply atan_le. apply Rmult_le_compat_r; [left; apply Rinv_0_lt_compat; auto|lra]. }
    unfold d. nra. }
  pose proof (atan_bound t1) as B1. rewrite <- P in B1. pose proof (atan_bound ((hi n - m * m) / mG)) as B2. rewrite <- Q in B2.
  assert (Ct : cos (plo n + d) <> 0) by (apply Rgt_not_eq, cos_gt_0; lra).
  assert (Cp : cos (plo n) <> 0) by (apply Rgt_not_eq, cos_gt_0; lra).
  assert (T1 : tan (plo n) = t1) by (rewrite P; apply tan_atan).
  assert (Ll : lo n - m * m = mG * t1) by (unfold t1; field; lra).
  assert (D' : 1 - t1 * tan d <> 0).
  { intros X. apply D. replace (mG - tan d * (lo n - m * m)) with (mG * (1 - t1 * tan d)) by (rewrite Ll; ring). rewrite X; ring. }
  rewrite tan_plus; auto; [|rewrite T1; exact D']. rewrite T1.
  replace (mG * tan d + lo n - m * m) with (mG * (t1 + tan d)) by (replace (mG * tan d + lo n - m * m) with (mG * tan d + (lo n - m * m)) by ring; rewrite Ll; ring).
  replace (mG - tan d * (lo n - m * m)) with (mG * (1 - t1 * tan d)) by (rewrite Ll; ring).
  field. split; auto. lra.
Qed.

Lemma sample_range n v s : set_up n -> 0 <= v <= 1 -> sample n v = Some s -> lo n <= s <= hi n.
Proof.
  intros SU V E. destruct (ty n) eqn:T.
  - rewrite (sample_bw n v s SU T V E). unfold set_up in SU. rewrite T in SU. destruct SU as (G & L & P & Q).
    set (m := bwMass n) in *. set (mG := m * bwWidth n) in *.
    set (d := (phi n - plo n) * v) in *.
    assert (Rg : plo n <= plo n + d <= phi n).
    { assert (plo n <= phi n). { rewrite P, Q. apply atan_le. apply Rmult_le_compat_r; [left; apply Rinv_0_lt_compat; auto|lra]. }
      unfold d. nra. }
    pose proof (atan_bound ((lo n - m * m) / mG)) as B1. rewrite <- P in B1. pose proof (atan_bound ((hi n - m * m) / mG)) as B2. rewrite <- Q in B2.
    assert (T1 : tan (plo n) <= tan (plo n + d)) by (apply tan_le_inv; lra).
    assert (T2 : tan (plo n + d) <= tan (phi n)) by (apply tan_le_inv; lra).
    rewrite P in T1 at 1. rewrite Q in T2. rewrite tan_atan in T1, T2. clearbody d.
    assert (lo n - m * m = mG * ((lo n - m * m) / mG)) by (field; lra). assert (hi n - m * m = mG * ((hi n - m * m) / mG)) by (field; lra).
    split; nra.
  - unfold sample in E. unfold set_up in SU. rewrite T in *. injection E as <-. nra.
  - unfold sample in E. unfold set_up in SU. rewrite T in *. injection E as <-. lra.
Qed.

(** The distribution function of a node that is not quasi-stable. *)
Definition cdf (n : node) (s : R) : R :=
  match ty n with
  | BW => (atan ((s - bwMass n * bwMass n) / (bwMass n * bwWidth n)) - plo n) / (phi n - plo n)
  | _ => (s - lo n) / (hi n - lo n)
  end.

Lemma sample_cdf n v s : set_up n -> ty n <> QuasiStable -> lo n < hi n -> 0 <= v <= 1 -> sample n v = Some s -> cdf n s = v.
Proof.
  intros SU NQ LH V E. destruct (ty n) eqn:T; [|unfold sample in E; rewrite T in E; injection E as <-; unfold cdf; rewrite T; field; lra|congruence].
  rewrite (sample_bw n v s SU T V E). unfold set_up in SU. rewrite T in SU. destruct SU as (G & L & P & Q). unfold cdf. rewrite T.
  set (m := bwMass n) in *. set (mG := m * bwWidth n) in *.
  assert (Lt : plo n < phi n). { rewrite P, Q. apply atan_increasing. apply Rmult_lt_compat_r; [apply Rinv_0_lt_compat; auto|lra]. }
  set (d := (phi n - plo n) * v) in *.
  assert (Rg : plo n <= plo n + d <= phi n) by (unfold d; nra).
  pose proof (atan_bound ((lo n - m * m) / mG)) as B1. rewrite <- P in B1. pose proof (atan_bound ((hi n - m * m) / mG)) as B2. rewrite <- Q in B2.
  replace ((m * m + mG * tan (plo n + d) - m * m) / mG) with (tan (plo n + d)) by (field; lra).
  rewrite atan_tan by lra. unfold d. field. lra.
Qed.

Lemma cdf_density n s : set_up n -> ty n <> QuasiStable -> lo n < hi n -> derivable_pt_lim (cdf n) s (density n s).
Proof.
  intros SU NQ LH. unfold cdf, density. unfold set_up in SU. destruct (ty n) eqn:T; [| |congruence].
  - destruct SU as (G & L & P & Q). set (m := bwMass n) in *.
    assert (Lt : plo n < phi n). { rewrite P, Q. apply atan_increasing. apply Rmult_lt_compat_r; [apply Rinv_0_lt_compat; auto|lra]. }
    set (mG := m * bwWidth n) in *.
    assert (D : derivable_pt_lim (fun s => (s - m * m) / mG) s (/ mG)).
    { replace (/ mG) with ((1 - 0) * / mG + (s - m * m) * 0) by ring.
      apply (derivable_pt_lim_mult (fun s => s - m * m) (fun _ => / mG)).
      - apply (derivable_pt_lim_minus (fun s => s) (fun _ => m * m)); [apply derivable_pt_lim_id|apply derivable_pt_lim_const].
      - apply derivable_pt_lim_const. }
    set (x := (s - m * m) / mG) in *.
    assert (A : derivable_pt_lim (fun s => atan ((s - m * m) / mG)) s (/ (1 + x ^ 2) * / mG)).
    { apply (derivable_pt_lim_comp (fun s => (s - m * m) / mG) atan); [exact D|apply derivable_pt_lim_atan]. }
    assert (F : derivable_pt_lim (fun s => (atan ((s - m * m) / mG) - plo n) / (phi n - plo n)) s
                  ((/ (1 + x ^ 2) * / mG - 0) * / (phi n - plo n) + (atan x - plo n) * 0)).
    { apply (derivable_pt_lim_mult (fun s => atan ((s - m * m) / mG) - plo n) (fun _ => / (phi n - plo n))); [|apply derivable_pt_lim_const].
      apply (derivable_pt_lim_minus (fun s => atan ((s - m * m) / mG)) (fun _ => plo n)); [exact A|apply derivable_pt_lim_const]. }
    assert (Eq : (/ (1 + x ^ 2) * / mG - 0) * / (phi n - plo n) + (atan x - plo n) * 0
                 = mG / ((phi n - plo n) * ((s - m * m) * (s - m * m) + m * m * bwWidth n * bwWidth n))).
    { replace (m * m * bwWidth n * bwWidth n) with (mG * mG) by (unfold mG; ring). unfold x.
      assert (Z : 0 < (s - m * m) * (s - m * m) + mG * mG) by (pose proof (Rle_0_sqr (s - m * m)); unfold Rsqr in *; clearbody mG; nra). clearbody mG. field. repeat split; lra. }
    rewrite Eq in F. exact F.
  - replace (1 / (hi n - lo n)) with ((1 - 0) * / (hi n - lo n) + (s - lo n) * 0) by (field; lra).
    apply (derivable_pt_lim_mult (fun s => s - lo n) (fun _ => / (hi n - lo n))); [|apply derivable_pt_lim_const].
    apply (derivable_pt_lim_minus (fun s => s) (fun _ => lo n)); [apply derivable_pt_lim_id|apply derivable_pt_lim_const].
Qed.
