From Verif.Common Require Import Prelude.
From Coq Require Import Reals Lra Lia FunctionalExtensionality.
From Coquelicot Require Import Hierarchy Complex.
From Verif.Polarised Require Import Model Spec.
Local Open Scope C_scope.

(** ** Complex numbers *)
Lemma conj_add a b : Cconj (a + b) = Cconj a + Cconj b.
Proof. apply injective_projections; cbn; ring. Qed.
Lemma conj_mul a b : Cconj (a * b) = Cconj a * Cconj b.
Proof. apply injective_projections; cbn; ring. Qed.
Lemma conj_conj a : Cconj (Cconj a) = a.
Proof. apply injective_projections; cbn; ring. Qed.
Lemma conj_r x : Cconj (RtoC x) = RtoC x.
Proof. apply injective_projections; cbn; ring. Qed.
Lemma div_r a x : a / RtoC x = a * RtoC (/ x).
Proof.
  destruct (Req_dec x 0) as [->|N].
  - rewrite Rinv_0. apply injective_projections; cbn; unfold Rdiv; rewrite ?Rmult_0_l, ?Rplus_0_l, ?Rmult_1_r, ?Rmult_0_r, ?Rinv_0, ?Ropp_0; ring.
  - rewrite RtoC_inv by exact N. reflexivity.
Qed.
Lemma conj_div_r a x : Cconj (a / RtoC x) = Cconj a / RtoC x.
Proof. now rewrite !div_r, conj_mul, conj_r. Qed.
Lemma re_add a b : Re (a + b) = (Re a + Re b)%R. Proof. reflexivity. Qed.
Lemma re_scal x a : Re (RtoC x * a) = (x * Re a)%R.
Proof. destruct a as [u v]. unfold Re, RtoC, Cmult. cbn [fst snd]. lra. Qed.

(** ** Sums *)
Lemma csum_ext n f g : (forall k, (k < n)%nat -> f k = g k) -> csum n f = csum n g.
Proof. induction n as [|n IH]; intro H; [reflexivity|]. cbn. rewrite IH by (intros; apply H; lia). now rewrite H by lia. Qed.
Lemma csum_plus n f g : csum n (fun k => f k + g k) = csum n f + csum n g.
Proof. induction n as [|n IH]; cbn; [ring|]. rewrite IH. ring. Qed.
Lemma csum_l n x f : csum n (fun k => x * f k) = x * csum n f.
Proof. induction n as [|n IH]; cbn; [ring|]. rewrite IH. ring. Qed.
Lemma csum_r n x f : csum n (fun k => f k * x) = csum n f * x.
Proof. induction n as [|n IH]; cbn; [ring|]. rewrite IH. ring. Qed.
Lemma csum_0 n : csum n (fun _ => RtoC 0) = RtoC 0.
Proof. induction n as [|n IH]; cbn; [reflexivity|]. rewrite IH. ring. Qed.
Lemma csum_swap n m f : csum n (fun i => csum m (fun j => f i j)) = csum m (fun j => csum n (fun i => f i j)).
Proof. induction n as [|n IH]; cbn; [now rewrite csum_0|]. now rewrite IH, <- csum_plus. Qed.
Lemma csum_swap3 n m k f : csum n (fun i => csum m (fun j => csum k (fun l => f i j l))) = csum k (fun l => csum n (fun i => csum m (fun j => f i j l))).
Proof. rewrite (csum_ext n _ (fun i => csum k (fun l => csum m (fun j => f i j l)))) by (intros; apply csum_swap). apply csum_swap. Qed.
Lemma csum_swap4 n m k h f : csum n (fun i => csum m (fun j => csum k (fun l => csum h (fun e => f i j l e)))) = csum h (fun e => csum n (fun i => csum m (fun j => csum k (fun l => f i j l e)))).
Proof. rewrite (csum_ext n _ (fun i => csum h (fun e => csum m (fun j => csum k (fun l => f i j l e))))) by (intros; apply csum_swap3). apply csum_swap. Qed.
Lemma csum_conj n f : Cconj (csum n f) = csum n (fun k => Cconj (f k)).
Proof. induction n as [|n IH]; cbn; [apply conj_r|]. now rewrite conj_add, IH. Qed.
Lemma csum_split m k f : csum (m + k) f = csum m f + csum k (fun j => f (m + j)%nat).
Proof. induction k as [|k IH]; [rewrite Nat.add_0_r; cbn; ring|]. rewrite Nat.add_succ_r. cbn. rewrite IH. ring. Qed.
Lemma csum_prod n m f : csum (n * m) f = csum n (fun i => csum m (fun j => f (i * m + j)%nat)).
Proof. induction n as [|n IH]; [reflexivity|]. replace (S n * m)%nat with (n * m + m)%nat by lia. rewrite csum_split, IH. reflexivity. Qed.
Lemma csum_re n f : Re (csum n f) = sumR n (fun k => Re (f k)).
Proof. induction n as [|n IH]; cbn; [reflexivity|]. now rewrite <- IH. Qed.
Lemma sumR_ext n f g : (forall k, (k < n)%nat -> f k = g k) -> sumR n f = sumR n g.
Proof. induction n as [|n IH]; intro H; [reflexivity|]. cbn. rewrite IH by (intros; apply H; lia). now rewrite H by lia. Qed.
Lemma sumR_nonneg n f : (forall k, (k < n)%nat -> (0 <= f k)%R) -> (0 <= sumR n f)%R.
Proof. induction n as [|n IH]; intro H; cbn; [lra|]. specialize (IH ltac:(intros; apply H; lia)). specialize (H n ltac:(lia)). lra. Qed.
Lemma rsum_ok n f g : (forall k, (k < n)%nat -> f k = Ok (g k)) -> rsum n f = Ok (csum n g).
Proof. induction n as [|n IH]; intro H; [reflexivity|]. cbn. rewrite IH by (intros; apply H; lia). cbn. now rewrite H by lia. Qed.

(** ** The fields of an entry *)
Lemma fields_eq s1 s2 m1 m2 f : (m2 < s1)%nat -> (f < s2)%nat ->
  fields s1 s2 ((m1 * s1 + m2) * s2 + f) = (f, m1 * s1 + m2, m1 * s2 + f, m2 * s2 + f)%nat.
Proof.
  intros H2 Hf. unfold fields.
  assert (E1 : (((m1 * s1 + m2) * s2 + f) mod s2 = f)%nat) by (rewrite Nat.add_comm, Nat.mod_add, Nat.mod_small by lia; lia).
  rewrite E1. replace ((m1 * s1 + m2) * s2 + f - f)%nat with ((m1 * s1 + m2) * s2)%nat by lia. rewrite Nat.div_mul by lia.
  assert (E2 : ((m1 * s1 + m2) mod s1 = m2)%nat) by (rewrite Nat.add_comm, Nat.mod_add, Nat.mod_small by lia; lia).
  rewrite E2. replace (m1 * s1 + m2 - m2)%nat with (m1 * s1)%nat by lia. now rewrite Nat.div_mul by lia.
Qed.
Lemma fields_sum s1 s2 (g : nat -> nat -> nat -> nat -> nat -> C) :
  csum (s1 * s1 * s2) (fun x => let '(f, psi, y, z) := fields s1 s2 x in g x f psi y z) =
  csum s1 (fun m1 => csum s1 (fun m2 => csum s2 (fun f => g ((m1 * s1 + m2) * s2 + f)%nat f (m1 * s1 + m2)%nat (m1 * s2 + f)%nat (m2 * s2 + f)%nat))).
Proof.
  rewrite csum_prod. rewrite csum_prod. apply csum_ext; intros m1 H1. apply csum_ext; intros m2 H2. apply csum_ext; intros f Hf.
  now rewrite fields_eq by assumption.
Qed.

(** ** The normalisation for hermitian coefficients *)
(** The integrals are up to date. *)
Definition current (s1 s2 n : nat) (pf : list R) (s : sample) (norms : nat -> nat -> nat -> C) : Prop :=
  forall m1 m2 f i j, (m1 < s1)%nat -> (m2 < s1)%nat -> (f < s2)%nat -> (i <= j)%nat -> (j < n)%nat -> queued pf (m1 * s1 + m2) = true ->
  norms ((m1 * s1 + m2) * s2 + f)%nat i j = integral s i (m1 * s2 + f) j (m2 * s2 + f).
Lemma in_range s1 s2 m1 m2 f : (m1 < s1)%nat -> (m2 < s1)%nat -> (f < s2)%nat -> ((m1 * s1 + m2) * s2 + f < s1 * s1 * s2)%nat.
Proof. intros. assert (m1 * s1 + m2 + 1 <= s1 * s1)%nat by nia. nia. Qed.
Lemma update_current s1 s2 n pf todo s norms :
  (forall m1 m2 f i j, (m1 < s1)%nat -> (m2 < s1)%nat -> (f < s2)%nat -> (i <= j)%nat -> (j < n)%nat -> queued pf (m1 * s1 + m2) = true ->
     todo i = false -> todo j = false -> norms ((m1 * s1 + m2) * s2 + f)%nat i j = integral s i (m1 * s2 + f) j (m2 * s2 + f)) ->
  current s1 s2 n pf s (update s1 s2 n pf todo s norms).
Proof.
  intros H m1 m2 f i j H1 H2 Hf Hij Hj Q. unfold update. rewrite fields_eq by assumption. rewrite Q. cbn [andb].
  pose proof (in_range s1 s2 m1 m2 f H1 H2 Hf) as X. apply Nat.ltb_lt in X. apply Nat.leb_le in Hij as X2. apply Nat.ltb_lt in Hj as X3. rewrite X, X2, X3. cbn [andb].
  destruct (todo i) eqn:Ti; [reflexivity|]. destruct (todo j) eqn:Tj; [reflexivity|]. cbn. now apply H.
Qed.
Lemma integral_conj s i x j y : Cconj (integral s i x j y) = integral s j y i x.
Proof.
  unfold integral. rewrite conj_div_r, csum_conj. f_equal. apply csum_ext. intros e _. rewrite !conj_mul, conj_conj, conj_r. ring.
Qed.
Lemma integral_same s s' i x j y : n_events s' = n_events s -> (forall e, weight s' e = weight s e) ->
  (forall e x, amps s' e i x = amps s e i x) -> (forall e x, amps s' e j x = amps s e j x) -> integral s' i x j y = integral s i x j y.
Proof.
  intros Hn Hw Hi Hj. unfold integral, total_weight. rewrite Hn. f_equal; [|f_equal; f_equal].
  - apply csum_ext. intros e _. now rewrite Hw, Hi, Hj.
  - apply csum_ext. intros e _. now rewrite Hw.
Qed.
(** The entry (i, j) with coefficients D. *)
Definition full (s1 s2 : nat) (D : nat -> nat -> nat -> C) (s : sample) (i j : nat) : C :=
  csum s1 (fun m1 => csum s1 (fun m2 => csum s2 (fun f => D f m1 m2 * integral s i (m1 * s2 + f) j (m2 * s2 + f)))).
Lemma full_conj s1 s2 D s i j : (forall f a b, (a < s1)%nat -> (b < s1)%nat -> (f < s2)%nat -> Cconj (D f a b) = D f b a) -> Cconj (full s1 s2 D s j i) = full s1 s2 D s i j.
Proof.
  intro H. unfold full. rewrite csum_conj. rewrite csum_swap. apply csum_ext. intros m1 H1. rewrite csum_conj. apply csum_ext. intros m2 H2.
  rewrite csum_conj. apply csum_ext. intros f Hf. now rewrite conj_mul, integral_conj, H.
Qed.
Lemma total_weight_eq s : total_weight s = sumR (n_events s) (weight s).
Proof. unfold total_weight. rewrite csum_re. now apply sumR_ext. Qed.
Lemma bilinear s1 s2 n D s c :
  csum n (fun i => csum n (fun j => c i * Cconj (c j) * full s1 s2 D s i j)) =
  csum (n_events s) (fun e => RtoC (weight s e) * csum s1 (fun m1 => csum s1 (fun m2 => csum s2 (fun f =>
     D f m1 m2 * (T_at s2 n c s e m1 f * Cconj (T_at s2 n c s e m2 f)))))) / RtoC (total_weight s).
Proof.
  rewrite div_r. set (w := RtoC (/ total_weight s)).
  transitivity (csum n (fun i => csum n (fun j => csum (n_events s) (fun e => csum s1 (fun m1 => csum s1 (fun m2 => csum s2 (fun f =>
     RtoC (weight s e) * D f m1 m2 * (c i * amps s e i (m1 * s2 + f)%nat) * Cconj (c j * amps s e j (m2 * s2 + f)%nat)))) * w)))).
  - apply csum_ext. intros i _. apply csum_ext. intros j _. unfold full. rewrite <- csum_l.
    rewrite (csum_ext s1 _ (fun m1 => csum s1 (fun m2 => csum s2 (fun f => csum (n_events s) (fun e =>
       RtoC (weight s e) * D f m1 m2 * (c i * amps s e i (m1 * s2 + f)%nat) * Cconj (c j * amps s e j (m2 * s2 + f)%nat) * w))))).
    2:{ intros m1 _. rewrite <- csum_l. apply csum_ext. intros m2 _. rewrite <- csum_l. apply csum_ext. intros f _.
        unfold integral. rewrite div_r. fold w. rewrite <- csum_r, <- csum_l, <- csum_l. apply csum_ext. intros e _. rewrite conj_mul. ring. }
    rewrite csum_swap4. apply csum_ext. intros e _. rewrite <- csum_r. apply csum_ext. intros m1 _. rewrite <- csum_r. apply csum_ext. intros m2 _.
    rewrite <- csum_r. apply csum_ext. intros f _. reflexivity.
  - rewrite (csum_ext n _ (fun i => csum (n_events s) (fun e => csum n (fun j => csum s1 (fun m1 => csum s1 (fun m2 => csum s2 (fun f =>
     RtoC (weight s e) * D f m1 m2 * (c i * amps s e i (m1 * s2 + f)%nat) * Cconj (c j * amps s e j (m2 * s2 + f)%nat)))) * w)))).
    2:{ intros i _. now rewrite csum_swap. }
    rewrite csum_swap, <- csum_r. apply csum_ext. intros e _.
    rewrite (csum_ext n _ (fun i => csum n (fun j => csum s1 (fun m1 => csum s1 (fun m2 => csum s2 (fun f =>
     RtoC (weight s e) * D f m1 m2 * (c i * amps s e i (m1 * s2 + f)%nat) * Cconj (c j * amps s e j (m2 * s2 + f)%nat))))) * w)).
    2:{ intros i _. now rewrite csum_r. }
    rewrite csum_r. f_equal.
    rewrite (csum_ext n _ (fun i => csum s1 (fun m1 => csum s1 (fun m2 => csum s2 (fun f => csum n (fun j =>
     RtoC (weight s e) * D f m1 m2 * (c i * amps s e i (m1 * s2 + f)%nat) * Cconj (c j * amps s e j (m2 * s2 + f)%nat))))))).
    2:{ intros i _. symmetry. apply csum_swap4. }
    rewrite <- csum_swap4, <- csum_l. apply csum_ext. intros m1 _. rewrite <- csum_l. apply csum_ext. intros m2 _.
    rewrite <- csum_l. apply csum_ext. intros f _. unfold T_at, transitionMatrix. rewrite csum_conj.
    rewrite <- csum_r, <- csum_l, <- csum_l. apply csum_ext. intros i _. rewrite <- csum_l, <- csum_l, <- csum_l. apply csum_ext. intros j _. ring.
Qed.
Lemma average_eq s (g : nat -> C) : Re (csum (n_events s) (fun e => RtoC (weight s e) * g e) / RtoC (total_weight s)) = average s (fun e => Re (g e)).
Proof.
  unfold average. rewrite div_r, Cmult_comm, re_scal, csum_re, <- total_weight_eq. unfold Rdiv. rewrite Rmult_comm. f_equal.
  apply sumR_ext. intros. apply re_scal.
Qed.
(** The normalisation is the average of the density with the coefficients D. *)
Lemma norm_average s1 s2 n pf m_rho D s c norms :
  (forall f a b, (a < s1)%nat -> (b < s1)%nat -> (f < s2)%nat -> Cconj (D f a b) = D f b a) ->
  (forall f a b, (a < s1)%nat -> (b < s1)%nat -> (f < s2)%nat -> coefficient m_rho pf f (a * s1 + b) = D f a b) ->
  (forall f a b, (a < s1)%nat -> (b < s1)%nat -> (f < s2)%nat -> queued pf (a * s1 + b) = false -> D f a b = 0) ->
  current s1 s2 n pf s norms ->
  m_norm s1 s2 n m_rho pf c norms = average s (fun e => Re (csum s1 (fun m1 => csum s1 (fun m2 => csum s2 (fun f =>
     D f m1 m2 * (T_at s2 n c s e m1 f * Cconj (T_at s2 n c s e m2 f))))))).
Proof.
  intros Hh Hc Hq Cur. rewrite <- average_eq, <- bilinear. unfold m_norm. f_equal. apply csum_ext. intros i Hi. apply csum_ext. intros j Hj. f_equal.
  assert (F : forall i j, (i <= j)%nat -> (j < n)%nat -> norm_ij s1 s2 m_rho pf norms i j = full s1 s2 D s i j).
  { intros i' j' Hij Hj'. unfold norm_ij. rewrite (fields_sum s1 s2 (fun x f psi _ _ => coefficient m_rho pf f psi * norms x i' j')).
    apply csum_ext. intros m1 H1. apply csum_ext. intros m2 H2. apply csum_ext. intros f Hf. rewrite Hc by assumption.
    destruct (queued pf (m1 * s1 + m2)) eqn:Q; [now rewrite Cur by assumption|]. rewrite (Hq f m1 m2) by assumption. ring. }
  destruct (Nat.ltb_spec j i) as [L|L]; [rewrite F by lia; now apply full_conj|apply F; lia].
Qed.

(** ** Density matrices *)
Lemma Ci2 : Ci * Ci = - RtoC 1. Proof. apply injective_projections; cbn; ring. Qed.
Lemma lt3 i : (i < 3)%nat -> i = 0%nat \/ i = 1%nat \/ i = 2%nat. Proof. lia. Qed.
Lemma lt2 i : (i < 2)%nat -> i = 0%nat \/ i = 1%nat. Proof. lia. Qed.
(** The two versions of the matrix are transposed to each other, and hermitian. *)
Lemma rho_transposed d p m_rho : densityMatrix d p = Ok m_rho -> exists m, rho d p = Ok m /\
  (forall a b, (a < d)%nat -> (b < d)%nat -> m_rho (a * d + b)%nat = m b a /\ Cconj (m a b) = m b a).
Proof.
  intro H.
  assert (G : (d <> 2 -> d <> 3 -> exists m, rho d p = Ok m /\ (forall a b, (a < d)%nat -> (b < d)%nat -> m_rho (a * d + b)%nat = m b a /\ Cconj (m a b) = m b a))%nat).
  { intros N2 N3. assert (E : densityMatrix d p = Ok (fun i => delta (i / d) (i mod d))) by (destruct d as [|[|[|[|d]]]]; [reflexivity|reflexivity|congruence|congruence|reflexivity]).
    rewrite E in H. injection H as <-. assert (Er : rho d p = Ok delta) by (destruct d as [|[|[|[|d]]]]; [reflexivity|reflexivity|congruence|congruence|reflexivity]).
    exists delta. split; [exact Er|]. intros a b Ha Hb. split.
    - rewrite Nat.div_add_l, (Nat.add_comm (a * d)), Nat.mod_add, Nat.div_small, Nat.mod_small, Nat.add_0_r by lia. unfold delta. now rewrite Nat.eqb_sym.
    - unfold delta. rewrite Nat.eqb_sym. destruct (b =? a)%nat; apply conj_r. }
  destruct (Nat.eq_dec d 2) as [->|N2]; [|destruct (Nat.eq_dec d 3) as [->|N3]; [|exact (G N2 N3)]]; clear G.
  - cbn [densityMatrix rho] in *. destruct p as [|px [|py [|pz p]]]; try discriminate. injection H as <-. eexists. split; [reflexivity|].
    intros a b Ha Hb. destruct (lt2 a Ha) as [-> | ->]; destruct (lt2 b Hb) as [-> | ->]; cbn; split; apply injective_projections; cbn; ring.
  - cbn [densityMatrix rho] in *. destruct p as [|px [|py [|pz [|Tyy [|Tzz [|Txy [|Txz [|Tyz p]]]]]]]]; try discriminate. injection H as <-. eexists. split; [reflexivity|].
    intros a b Ha Hb. set (h := sqrt 0.375). set (k := sqrt 1.5). set (l := sqrt 3). set (q := sqrt 6).
    destruct (lt3 a Ha) as [-> |[-> | ->]]; destruct (lt3 b Hb) as [-> |[-> | ->]]; cbn; split; apply injective_projections; cbn; ring.
Qed.
Lemma prob_eq s1 s2 p m T : rho s1 p = Ok m ->
  probExpression s1 s2 p [] T = Ok (Re (csum s1 (fun a => csum s1 (fun b => m a b * csum s2 (fun f => T b f * Cconj (T a f)))))).
Proof. intro H. unfold probExpression. rewrite H. cbn [bind]. rewrite (rsum_ok s1 _ (fun a => csum s1 (fun b => m a b * csum s2 (fun f => T b f * Cconj (T a f))))); [reflexivity|].
  intros a _. now apply rsum_ok. Qed.
Lemma prob_full s1 s2 p m T : rho s1 p = Ok m ->
  probExpression s1 s2 p [] T = Ok (Re (csum s1 (fun m1 => csum s1 (fun m2 => csum s2 (fun f => m m2 m1 * (T m1 f * Cconj (T m2 f))))))).
Proof.
  intro H. rewrite (prob_eq _ _ _ _ _ H). f_equal. f_equal. rewrite csum_swap. apply csum_ext. intros m1 _. apply csum_ext. intros m2 _. now rewrite csum_l.
Qed.
Lemma cmod2 (a : C) : (Cmod a ^ 2 = Re a * Re a + Im a * Im a)%R.
Proof. unfold Cmod. rewrite pow2_sqrt by (destruct a; cbn; nra). unfold Re, Im. ring. Qed.
