(** Rotations of homogeneous polynomials in two variables, without reference to the code. *)
From Coq Require Import Reals Lra List ZArith Lia Factorial.
From Verif.Wigner Require Import Sums.
Import ListNotations.
Local Open Scope R_scope.

(** The coefficient of x^k y^(n-k) in (a x + b y)^n, zero for k > n. *)
Definition lin (n : nat) (a b : R) (k : nat) : R := F (Z.of_nat n) * rf (Z.of_nat k) * rf (Z.of_nat n - Z.of_nat k) * a ^ k * b ^ (n - k).
Lemma lin_zero n a b k : (n < k)%nat -> lin n a b k = 0.
Proof. intro H. unfold lin. rewrite (rf_neg (Z.of_nat n - Z.of_nat k)) by lia. ring. Qed.
Lemma rf_fact n : rf (Z.of_nat n) = / INR (fact n).
Proof. rewrite rf_pos by lia. unfold F. now rewrite Nat2Z.id. Qed.
Lemma binom a b n : (a + b) ^ n = sig n (fun k => lin n a b k).
Proof.
  rewrite binomial. assert (E : forall N f, sum_f_R0 f N = sig N f) by (induction N as [|N IH]; intro f; cbn; [reflexivity|now rewrite IH]). rewrite E. apply sig_ext. intros i Hi. unfold lin, Binomial.C.
  rewrite rf_fact. replace (Z.of_nat n - Z.of_nat i)%Z with (Z.of_nat (n - i)) by lia. rewrite rf_fact. unfold F. rewrite Nat2Z.id. field. split; apply INR_fact_neq_0.
Qed.
Lemma lin_scale n a b x y k : (k <= n)%nat -> lin n (a * x) (b * y) k = lin n a b k * x ^ k * y ^ (n - k).
Proof. intro H. unfold lin. rewrite !Rpow_mult_distr. ring. Qed.

Lemma cauchy f g p q : (forall k, (p < k)%nat -> f k = 0) -> (forall k, (q < k)%nat -> g k = 0) ->
  sig p f * sig q g = sig (p + q) (fun r => sig r (fun k => f k * g (r - k)%nat)).
Proof.
  revert f; induction p as [|p IH]; intros f Hf Hg.
  - cbn [sig Nat.add]. rewrite <- sig_scal. apply sig_ext. intros i _. symmetry. rewrite (sig_one i (fun k => f k * g (i - k)%nat) O); [rewrite Nat.sub_0_r; reflexivity|lia|]. intros k _ Hk. rewrite Hf by lia. ring.
  - rewrite sig_shift, Rmult_plus_distr_r. rewrite (IH (fun i => f (S i))) by (auto; intros; apply Hf; lia). cbn [Nat.add].
    transitivity (f O * g O + sig (p + q) (fun i => f O * g (S i) + sig i (fun k => f (S k) * g (i - k)%nat))).
    + rewrite sig_plus, (sig_scal _ (f O) (fun i => g (S i))). assert (Q : sig q g = g O + sig (p + q) (fun i => g (S i))); [|rewrite Q; ring].
      rewrite <- sig_shift. symmetry. replace (S (p + q)) with (q + S p)%nat by lia. apply sig_more. intros i Hi. apply Hg. lia.
    + rewrite (sig_shift (p + q) (fun r => sig r (fun k => f k * g (r - k)%nat))). f_equal. apply sig_ext. intros i _. rewrite sig_shift. reflexivity.
Qed.

(** The coefficient of x^r y^(p+q-r) in (c x - s y)^p (s x + c y)^q. *)
Definition co (p q : nat) (c s : R) (r : nat) : R := sig r (fun k => lin p c (- s) k * lin q s c (r - k)).
Lemma expansion p q c s x y : (c * x - s * y) ^ p * (s * x + c * y) ^ q = sig (p + q) (fun r => co p q c s r * x ^ r * y ^ (p + q - r)).
Proof.
  replace (c * x - s * y) with (c * x + - s * y) by ring. rewrite !binom. rewrite cauchy by (intros; apply lin_zero; assumption). apply sig_ext. intros r Hr. unfold co.
  transitivity ((x ^ r * y ^ (p + q - r)) * sig r (fun k => lin p c (- s) k * lin q s c (r - k))); [|ring]. rewrite <- sig_scal. apply sig_ext. intros k Hk. destruct (Nat.lt_ge_cases p k) as [L|L]; [rewrite !(lin_zero p) by exact L; ring|].
  destruct (Nat.lt_ge_cases q (r - k)) as [L'|L']; [rewrite !(lin_zero q) by exact L'; ring|]. rewrite !lin_scale by assumption.
  replace (x ^ r) with (x ^ k * x ^ (r - k)) by (rewrite <- pow_add; f_equal; lia). replace (y ^ (p + q - r)) with (y ^ (p - k) * y ^ (q - (r - k))) by (rewrite <- pow_add; f_equal; lia). ring.
Qed.

(** A polynomial that is zero everywhere has no coefficients. *)
Lemma sig_abs n f : Rabs (sig n f) <= sig n (fun i => Rabs (f i)).
Proof. induction n as [|n IH]; cbn; [lra|]. eapply Rle_trans; [apply Rabs_triang|]. lra. Qed.
Lemma sig_le n f g : (forall i, (i <= n)%nat -> f i <= g i) -> sig n f <= sig n g.
Proof. induction n as [|n IH]; intro H; cbn; [apply H; lia|]. pose proof (IH (fun i Hi => H i (Nat.le_trans _ _ _ Hi (Nat.le_succ_diag_r n)))). pose proof (H (S n) (Nat.le_refl _)). lra. Qed.
Lemma poly_zero n a : (forall x, 0 < x -> sig n (fun i => a i * x ^ i) = 0) -> forall i, (i <= n)%nat -> a i = 0.
Proof.
  revert a; induction n as [|n IH]; intros a H i Hi.
  - replace i with O by lia. pose proof (H 1 Rlt_0_1) as E. cbn in E. lra.
  - assert (A0 : a O = 0).
    { set (C := sig n (fun i => Rabs (a (S i)))). assert (C0 : 0 <= C) by (unfold C; clear; induction n as [|n IH]; cbn; [apply Rabs_pos|pose proof (Rabs_pos (a (S (S n)))); lra]).
      assert (Bd : forall x, 0 < x <= 1 -> Rabs (a O) <= x * C).
      { intros x [X0 X1]. pose proof (H x X0) as E. rewrite sig_shift in E. cbn [pow] in E. replace (a O) with (- sig n (fun i => a (S i) * (x * x ^ i))) by lra. rewrite Rabs_Ropp.
        eapply Rle_trans; [apply sig_abs|]. unfold C. rewrite <- sig_scal. apply sig_le. intros k _. rewrite Rabs_mult, Rabs_mult, (Rabs_pos_eq x) by lra.
        assert (P : Rabs (x ^ k) <= 1) by (rewrite Rabs_pos_eq by (apply pow_le; lra); rewrite <- (pow1 k); apply pow_incr; lra). pose proof (Rabs_pos (a (S k))). pose proof (Rabs_pos (x ^ k)).
        replace (Rabs (a (S k)) * (x * Rabs (x ^ k))) with (x * (Rabs (a (S k)) * Rabs (x ^ k))) by ring. apply Rmult_le_compat_l; [lra|]. nra. }
      destruct (Req_dec (a O) 0) as [E|E]; [exact E|]. exfalso. assert (P : 0 < Rabs (a O)) by (apply Rabs_pos_lt; exact E).
      set (x := Rabs (a O) / (2 * (C + Rabs (a O)))). assert (D : 0 < 2 * (C + Rabs (a O))) by lra. assert (x0 : 0 < x) by (apply Rdiv_lt_0_compat; lra).
      assert (Hx : x * (2 * (C + Rabs (a O))) = Rabs (a O)) by (unfold x; field; lra). clearbody x. assert (x1 : x <= 1) by nra. pose proof (Bd x (conj x0 x1)). nra. }
    destruct i as [|i]; [exact A0|]. apply (IH (fun k => a (S k))); [|lia]. intros x X0. pose proof (H x X0) as E. rewrite sig_shift, A0 in E.
    rewrite (sig_ext n _ (fun i => x * (a (S i) * x ^ i))) in E by (intros; cbn [pow]; ring). rewrite sig_scal in E. cbn [pow] in E. apply (Rmult_eq_reg_l x); lra.
Qed.
Lemma poly_unique n a b : (forall x y, sig n (fun i => a i * x ^ i * y ^ (n - i)) = sig n (fun i => b i * x ^ i * y ^ (n - i))) -> forall i, (i <= n)%nat -> a i = b i.
Proof.
  intros H i Hi. enough (E : a i - b i = 0) by lra. apply (poly_zero n (fun i => a i - b i)); [|exact Hi]. intros x _. pose proof (H x 1) as E.
  rewrite (sig_ext n _ (fun i => a i * x ^ i + (-1) * (b i * x ^ i))) by (intros; ring). rewrite sig_plus, sig_scal.
  rewrite (sig_ext n (fun i => a i * x ^ i * 1 ^ (n - i)) (fun i => a i * x ^ i)) in E by (intros; rewrite pow1; ring).
  rewrite (sig_ext n (fun i => b i * x ^ i * 1 ^ (n - i)) (fun i => b i * x ^ i)) in E by (intros; rewrite pow1; ring). lra.
Qed.

(** ** The matrix for polynomials of degree J. *)
Definition mat (J : nat) (c s : R) (p r : nat) : R := co p (J - p) c s r.
Lemma mat_expansion J p c s x y : (p <= J)%nat -> (c * x - s * y) ^ p * (s * x + c * y) ^ (J - p) = sig J (fun r => mat J c s p r * x ^ r * y ^ (J - r)).
Proof. intro H. rewrite expansion. replace (p + (J - p))%nat with J by lia. reflexivity. Qed.
Lemma mat_compose J c1 s1 c2 s2 p t : (p <= J)%nat -> (t <= J)%nat ->
  mat J (c1 * c2 - s1 * s2) (c1 * s2 + s1 * c2) p t = sig J (fun r => mat J c1 s1 p r * mat J c2 s2 r t).
Proof.
  intros Hp Ht. apply (poly_unique J (mat J (c1 * c2 - s1 * s2) (c1 * s2 + s1 * c2) p) (fun t => sig J (fun r => mat J c1 s1 p r * mat J c2 s2 r t))); [|exact Ht]. intros x y.
  rewrite <- mat_expansion by exact Hp.
  replace ((c1 * c2 - s1 * s2) * x - (c1 * s2 + s1 * c2) * y) with (c1 * (c2 * x - s2 * y) - s1 * (s2 * x + c2 * y)) by ring.
  replace ((c1 * s2 + s1 * c2) * x + (c1 * c2 - s1 * s2) * y) with (s1 * (c2 * x - s2 * y) + c1 * (s2 * x + c2 * y)) by ring.
  rewrite mat_expansion by exact Hp.
  rewrite (sig_ext J _ (fun r => sig J (fun t => mat J c1 s1 p r * (mat J c2 s2 r t * x ^ t * y ^ (J - t))))).
  - rewrite sig_swap. apply sig_ext. intros u _. transitivity ((x ^ u * y ^ (J - u)) * sig J (fun r => mat J c1 s1 p r * mat J c2 s2 r u)); [|ring]. rewrite <- sig_scal. apply sig_ext. intros r _. ring.
  - intros r Hr. rewrite Rmult_assoc, mat_expansion by exact Hr. rewrite <- sig_scal. reflexivity.
Qed.
Lemma mat_formula J c s p r : (p <= J)%nat ->
  mat J c s p r = F (Z.of_nat p) * F (Z.of_nat (J - p)) * sig r (fun k => rf (Z.of_nat k) * rf (Z.of_nat p - Z.of_nat k) * rf (Z.of_nat r - Z.of_nat k) * rf (Z.of_nat (J - p) - Z.of_nat r + Z.of_nat k) * (c ^ k * (- s) ^ (p - k) * s ^ (r - k) * c ^ (J - p - (r - k)))).
Proof.
  intro H. unfold mat, co. rewrite <- sig_scal. apply sig_ext. intros k Hk. unfold lin. replace (Z.of_nat (r - k)) with (Z.of_nat r - Z.of_nat k)%Z by lia.
  replace (Z.of_nat (J - p) - (Z.of_nat r - Z.of_nat k))%Z with (Z.of_nat (J - p) - Z.of_nat r + Z.of_nat k)%Z by lia. ring.
Qed.

(** With normalised monomials x^p y^(J-p) / sqrt(p! (J-p)!). *)
Definition nf (J p : nat) : R := F (Z.of_nat p) * F (Z.of_nat (J - p)).
Lemma nf_pos J p : 0 < nf J p.
Proof. apply Rmult_lt_0_compat; apply F_pos. Qed.
Lemma sq_pos J p : 0 < sqrt (nf J p).
Proof. apply sqrt_lt_R0, nf_pos. Qed.
Definition nd (J : nat) (c s : R) (p r : nat) : R := mat J c s p r * sqrt (nf J r) / sqrt (nf J p).
Lemma nd_expansion J p c s x y : (p <= J)%nat ->
  (c * x - s * y) ^ p * (s * x + c * y) ^ (J - p) / sqrt (nf J p) = sig J (fun r => nd J c s p r * (x ^ r * y ^ (J - r) / sqrt (nf J r))).
Proof.
  intro H. rewrite mat_expansion by exact H. transitivity (/ sqrt (nf J p) * sig J (fun r => mat J c s p r * x ^ r * y ^ (J - r))); [unfold Rdiv; ring|]. rewrite <- sig_scal. apply sig_ext. intros r _. unfold nd. pose proof (sq_pos J p). pose proof (sq_pos J r). field. split; lra.
Qed.
Lemma nd_compose J c1 s1 c2 s2 p t : (p <= J)%nat -> (t <= J)%nat ->
  nd J (c1 * c2 - s1 * s2) (c1 * s2 + s1 * c2) p t = sig J (fun r => nd J c1 s1 p r * nd J c2 s2 r t).
Proof.
  intros Hp Ht. unfold nd at 1. rewrite mat_compose by assumption. transitivity ((sqrt (nf J t) / sqrt (nf J p)) * sig J (fun r => mat J c1 s1 p r * mat J c2 s2 r t)); [unfold Rdiv; ring|]. rewrite <- sig_scal. apply sig_ext. intros r _. unfold nd. pose proof (sq_pos J p). pose proof (sq_pos J r). field. split; lra.
Qed.
Lemma nd_formula J c s p r : (p <= J)%nat ->
  nd J c s p r = sqrt (nf J p * nf J r) * sig r (fun k => rf (Z.of_nat k) * rf (Z.of_nat p - Z.of_nat k) * rf (Z.of_nat r - Z.of_nat k) * rf (Z.of_nat J - Z.of_nat p - Z.of_nat r + Z.of_nat k) * (c ^ k * (- s) ^ (p - k) * s ^ (r - k) * c ^ (J - p - (r - k)))).
Proof.
  intro H. unfold nd. rewrite mat_formula by exact H. fold (nf J p). rewrite sqrt_mult by (apply Rlt_le, nf_pos).
  replace (Z.of_nat (J - p)) with (Z.of_nat J - Z.of_nat p)%Z by lia. set (S0 := sig r _). pose proof (sq_pos J p) as P. assert (E : nf J p = sqrt (nf J p) * sqrt (nf J p)) by (symmetry; apply sqrt_def, Rlt_le, nf_pos).
  rewrite E at 1. field. lra.
Qed.
Lemma nd_transpose J c s p r : (p <= J)%nat -> (r <= J)%nat -> nd J c (- s) p r = nd J c s r p.
Proof.
  intros Hp Hr. rewrite !nd_formula by assumption. rewrite (Rmult_comm (nf J r)). f_equal.
  set (f := fun k => rf (Z.of_nat k) * rf (Z.of_nat p - Z.of_nat k) * rf (Z.of_nat r - Z.of_nat k) * rf (Z.of_nat J - Z.of_nat p - Z.of_nat r + Z.of_nat k) * (c ^ k * (- - s) ^ (p - k) * (- s) ^ (r - k) * c ^ (J - p - (r - k)))).
  assert (Ef : sig r f = sig (r + p) f) by (symmetry; apply sig_more; intros k Hk; unfold f; rewrite (rf_neg (Z.of_nat r - Z.of_nat k)) by lia; ring). rewrite Ef.
  rewrite <- (sig_more p r). 2:{ intros k Hk. rewrite (rf_neg (Z.of_nat p - Z.of_nat k)) by lia. ring. }
  rewrite (Nat.add_comm p r). apply sig_ext. intros k _. unfold f. rewrite Ropp_involutive.
  destruct (Nat.lt_ge_cases p k) as [L|L]; [rewrite (rf_neg (Z.of_nat p - Z.of_nat k)) by lia; ring|]. destruct (Nat.lt_ge_cases r k) as [L'|L']; [rewrite (rf_neg (Z.of_nat r - Z.of_nat k)) by lia; ring|].
  replace (J - r - (p - k))%nat with (J - p - (r - k))%nat by lia. replace (Z.of_nat J - Z.of_nat r - Z.of_nat p + Z.of_nat k)%Z with (Z.of_nat J - Z.of_nat p - Z.of_nat r + Z.of_nat k)%Z by lia. ring.
Qed.
Lemma nd_identity J p r : (p <= J)%nat -> (r <= J)%nat -> nd J 1 0 p r = if Nat.eqb p r then 1 else 0.
Proof.
  intros Hp Hr. assert (E : mat J 1 0 p r = if Nat.eqb p r then 1 else 0).
  - apply (poly_unique J (mat J 1 0 p) (fun r => if Nat.eqb p r then 1 else 0)); [|exact Hr]. intros x y. rewrite <- mat_expansion by exact Hp.
    rewrite (sig_one J (fun i => (if Nat.eqb p i then 1 else 0) * x ^ i * y ^ (J - i)) p); [|exact Hp|]. 2:{ intros k _ Hk. destruct (Nat.eqb_spec p k); [congruence|ring]. }
    rewrite Nat.eqb_refl. replace (1 * x - 0 * y) with x by ring. replace (0 * x + 1 * y) with y by ring. ring.
  - unfold nd. rewrite E. destruct (Nat.eqb_spec p r) as [-> |N]; [|unfold Rdiv; ring]. pose proof (sq_pos J r). field. lra.
Qed.
Lemma nd_orthonormal J c s p t : c * c + s * s = 1 -> (p <= J)%nat -> (t <= J)%nat -> sig J (fun r => nd J c s p r * nd J c s t r) = if Nat.eqb p t then 1 else 0.
Proof.
  intros U Hp Ht. rewrite (sig_ext J _ (fun r => nd J c s p r * nd J c (- s) r t)) by (intros; rewrite nd_transpose by assumption; reflexivity). rewrite <- nd_compose by assumption.
  replace (c * c - s * - s) with 1 by lra. replace (c * - s + s * c) with 0 by ring. apply nd_identity; assumption.
Qed.
