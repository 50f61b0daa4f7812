From Verif.Common Require Import Prelude.
From Coq Require Import Reals Lra Lia.
From Coquelicot Require Import Hierarchy Complex.
From Verif.Lineshapes Require Import Model.
From Verif.Shapes Require Import Model Spec.
Local Open Scope R_scope.
Lemma pol_loop_ok X c : forall n k F L, pol_loop X (map c (seq k (S n))) F L = F + L * sum_f_R0 (fun i => c (k + i)%nat * X ^ i) n.
Proof.
  induction n as [|n IH]; intros k F L.
  - cbn. rewrite Nat.add_0_r. ring.
  - change (seq k (S (S n))) with (k :: seq (S k) (S n)). cbn [map pol_loop]. rewrite IH. rewrite (decomp_sum (fun i => c (k + i)%nat * X ^ i) (S n)) by lia. cbn [pred pow]. rewrite Nat.add_0_r.
    rewrite (sum_eq (fun i => c (S k + i)%nat * X ^ i) (fun i => c (k + S i)%nat * X ^ i) n) by (intros; do 2 f_equal; lia).
    replace (sum_f_R0 (fun i => c (k + S i)%nat * (X * X ^ i)) n) with (X * sum_f_R0 (fun i => c (k + S i)%nat * X ^ i) n); [ring|].
    rewrite scal_sum. apply sum_eq. intros. ring.
Qed.
Lemma fold_sum (f : nat -> R) n : forall k r, fold_left (fun rt j => rt + f j) (seq k (S n)) r = r + sum_f_R0 (fun j => f (k + j)%nat) n.
Proof.
  induction n as [|n IH]; intros k r.
  - cbn. rewrite Nat.add_0_r. reflexivity.
  - change (seq k (S (S n))) with (k :: seq (S k) (S n)). cbn [fold_left]. rewrite IH. rewrite (decomp_sum (fun j => f (k + j)%nat) (S n)) by lia. cbn [pred]. rewrite Nat.add_0_r.
    rewrite (sum_eq (fun j => f (S k + j)%nat) (fun i => f (k + S i)%nat) n) by (intros; f_equal; lia). ring.
Qed.
Lemma fold_ext {A B} (f g : A -> B -> A) l : (forall a b, f a b = g a b) -> forall r, fold_left f l r = fold_left g l r.
Proof. intro H. induction l as [|x l IH]; intro r; cbn; [reflexivity|]. rewrite H. apply IH. Qed.
(** Two particles: dot p q >= m n. *)
Lemma dot_masses p q m n : on_shell p m -> on_shell q n -> m * n <= dot p q.
Proof.
  intros [Hm Ep] [Hn Eq]. unfold dot. set (a := px p * px q + py p * py q + pz p * pz q).
  assert (Pp : 0 <= m * m + px p * px p + py p * py p + pz p * pz p) by nra. assert (Pq : 0 <= n * n + px q * px q + py q * py q + pz q * pz q) by nra.
  assert (E : m * n + a <= pe p * pe q); [|unfold a in E; lra].
  rewrite Ep, Eq, <- sqrt_mult by assumption. destruct (Rle_dec (m * n + a) 0) as [H|H]; [pose proof (sqrt_pos ((m * m + px p * px p + py p * py p + pz p * pz p) * (n * n + px q * px q + py q * py q + pz q * pz q))); lra|].
  rewrite <- (sqrt_square (m * n + a)) by lra. apply sqrt_le_1; [nra|apply Rmult_le_pos; assumption|]. unfold a.
  set (x1 := px p). set (y1 := py p). set (z1 := pz p). set (x2 := px q). set (y2 := py q). set (z2 := pz q).
  pose proof (Rle_0_sqr (m * x2 - n * x1)). pose proof (Rle_0_sqr (m * y2 - n * y1)). pose proof (Rle_0_sqr (m * z2 - n * z1)).
  pose proof (Rle_0_sqr (x1 * y2 - y1 * x2)). pose proof (Rle_0_sqr (x1 * z2 - z1 * x2)). pose proof (Rle_0_sqr (y1 * z2 - z1 * y2)). unfold Rsqr in *. nra.
Qed.
Lemma dot_self p m : on_shell p m -> dot p p = m * m.
Proof. intros [Hm Ep]. unfold dot. rewrite Ep. rewrite sqrt_sqrt by nra. ring. Qed.
Lemma dot_plus p q r : dot p (plus q r) = dot p q + dot p r.
Proof. unfold dot, plus. cbn. ring. Qed.
Lemma dot_comm p q : dot p q = dot q p.
Proof. unfold dot. ring. Qed.
(** The part of the energy of the third particle is bounded. *)
Lemma third_bound pp pm p0 mp mm m0 M : on_shell pp mp -> on_shell pm mm -> on_shell p0 m0 -> 0 < M -> dot (plus (plus pp pm) p0) (plus (plus pp pm) p0) = M * M ->
  2 * dot p0 (plus (plus pp pm) p0) <= M * M + m0 * m0 - (mp + mm) * (mp + mm).
Proof.
  intros Hp Hm H0 HM E. pose proof (dot_masses _ _ _ _ Hp Hm) as D. pose proof (dot_self _ _ Hp). pose proof (dot_self _ _ Hm). pose proof (dot_self _ _ H0).
  assert (A : dot (plus (plus pp pm) p0) (plus (plus pp pm) p0) = 2 * dot p0 (plus (plus pp pm) p0) - dot p0 p0 + dot pp pp + dot pm pm + 2 * dot pp pm) by (unfold dot, plus; cbn; ring).
  rewrite E in A. lra.
Qed.
Section Bugg.
  Variables (b : bugg) (s : R).
  Hypothesis H : physical b s.
  Lemma mPi_pos : 0 < mPiPlus. Proof. unfold mPiPlus. lra. Qed.
  Lemma s_pos : 0 < s. Proof. pose proof mPi_pos. destruct H as (_ & _ & _ & _ & _ & _ & _ & S). nra. Qed.
  Lemma g1sg_pos : 0 < g1sg b s.
  Proof. destruct H as (A & B & _). unfold g1sg. repeat apply Rmult_lt_0_compat; try assumption. apply exp_pos. Qed.
  Lemma adler_pos : 0 < adlerZero b s.
  Proof. destruct H as (_ & _ & _ & _ & _ & A & B & _). unfold adlerZero. apply Rdiv_lt_0_compat; lra. Qed.
  Lemma rho_open s0 : 4 * s0 < s -> rho_2 s s0 = RtoC (sqrt (1 - 4 * s0 / s)) /\ 0 < 1 - 4 * s0 / s.
  Proof.
    intro L. pose proof s_pos. assert (0 < 1 - 4 * s0 / s) by (replace (1 - 4 * s0 / s) with ((s - 4 * s0) / s) by (field; lra); apply Rdiv_lt_0_compat; lra).
    unfold rho_2, complex_sqrt. destruct (Rlt_dec 0 (1 - 4 * s0 / s)); [split; [reflexivity|assumption]|contradiction].
  Qed.
  Lemma rho_closed s0 : s <= 4 * s0 -> rho_2 s s0 = (Ci * RtoC (sqrt (- (1 - 4 * s0 / s))))%C.
  Proof.
    intro L. pose proof s_pos. assert (1 - 4 * s0 / s <= 0). { replace (1 - 4 * s0 / s) with (- ((4 * s0 - s) / s)) by (field; lra). assert (0 <= (4 * s0 - s) / s) by (apply Rmult_le_pos; [lra|left; apply Rinv_0_lt_compat; assumption]). lra. }
    unfold rho_2, complex_sqrt. destruct (Rlt_dec 0 (1 - 4 * s0 / s)); [lra|reflexivity].
  Qed.
  (** The width of a channel: real and not negative when open, else imaginary. *)
  Lemma channel g m : 0 <= g -> exists X G, (RtoC (g * g1sg b s * s / (bM b * bM b) * exp (- alpha b * q s (m * m))) * rho_2 s (m * m))%C = (RtoC G + Ci * RtoC X)%C /\ 0 <= G /\ (s <= 4 * (m * m) -> G = 0).
  Proof.
    intro Hg. pose proof g1sg_pos. pose proof s_pos. destruct H as (HM & _). set (w := g * g1sg b s * s / (bM b * bM b) * exp (- alpha b * q s (m * m))).
    assert (0 <= w). { unfold w. apply Rmult_le_pos; [|left; apply exp_pos]. apply Rmult_le_pos; [apply Rmult_le_pos; [apply Rmult_le_pos|]; lra|]. left. apply Rinv_0_lt_compat. nra. }
    destruct (Rlt_dec (4 * (m * m)) s) as [L|L].
    - destruct (rho_open (m * m) L) as [-> P]. exists 0, (w * sqrt (1 - 4 * (m * m) / s)). split; [rewrite RtoC_mult; ring|]. split; [apply Rmult_le_pos; [assumption|apply sqrt_pos]|lra].
    - rewrite rho_closed by lra. exists (w * sqrt (- (1 - 4 * (m * m) / s))), 0. split; [rewrite RtoC_mult; ring|]. split; [lra|reflexivity].
  Qed.
  Lemma four_pions : 0 <= gamma_4pi b s /\ (s <= 16 * mPiPlus * mPiPlus -> gamma_4pi b s = 0).
  Proof.
    destruct H as (HM & _ & Hg & _). unfold gamma_4pi, Gamma_4pi, rho_4pi. assert (P : forall x, 0 < 1 / (1 + exp x)) by (intro x; pose proof (exp_pos x); apply Rdiv_lt_0_compat; lra).
    destruct (Rlt_dec (16 * mPiPlus * mPiPlus) s) as [L|L]; (split; [|intro; try lra]).
    - apply Rmult_le_pos; [lra|]. apply Rmult_le_pos; [apply Rmult_le_pos; [assumption|left; apply P]|]. left. apply Rinv_0_lt_compat. apply P.
    - lra.
  Qed.
  Lemma pions : exists g, gamma_2pi b s = RtoC g /\ 0 < g.
  Proof.
    pose proof g1sg_pos. pose proof adler_pos. destruct (rho_open (mPiPlus * mPiPlus)) as [E P]; [destruct H as (_ & _ & _ & _ & _ & _ & _ & S); lra|].
    exists (g1sg b s * adlerZero b s * sqrt (1 - 4 * (mPiPlus * mPiPlus) / s)). split; [unfold gamma_2pi; rewrite E; symmetry; apply RtoC_mult|].
    apply Rmult_lt_0_compat; [apply Rmult_lt_0_compat; assumption|apply sqrt_lt_R0; assumption].
  Qed.
  (** All together. *)
  Lemma denominator : exists X g G, gamma_2pi b s = RtoC g /\ iBW b s = (RtoC X - Ci * RtoC (g + G))%C /\ 0 < g /\ 0 <= G /\ (s <= 16 * mPiPlus * mPiPlus -> G = 0).
  Proof.
    destruct pions as (g & Eg & Pg). pose proof H as (_ & _ & _ & HK & He & _).
    destruct (channel (g_2K b) mKPlus HK) as (XK & GK & EK & PK & ZK). destruct (channel (g_2eta b) mEta He) as (Xe & Ge & Ee & Pe & Ze). destruct four_pions as [P4 Z4].
    exists (bM b * bM b - s - g1sg b s * adlerZero b s * zfun b s + XK + Xe), g, (GK + Ge + gamma_4pi b s). split; [exact Eg|]. split.
    - unfold iBW, Gamma_tot, gamma_2K, gamma_2eta. rewrite Eg, EK, Ee. apply injective_projections; cbn; ring.
    - split; [exact Pg|]. split; [lra|]. intro L. rewrite ZK, Ze, Z4 by (unfold mPiPlus, mKPlus, mEta in *; lra). lra.
  Qed.
End Bugg.
