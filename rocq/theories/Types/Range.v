From Verif.Common Require Import Prelude Writes.
From Coq Require Import Reals Lra Lia Permutation.
From Verif.Events Require Model.
From Verif.Types Require Import Model Spec.
Local Open Scope R_scope.

(** ** Momenta *)
Record vec := Vec { vx : R; vy : R; vz : R; vt : R }.
Definition vplus (a b : vec) := Vec (vx a + vx b) (vy a + vy b) (vz a + vz b) (vt a + vt b).
Definition vzero := Vec 0 0 0 0.
Definition vm2 (a : vec) := vt a * vt a - vx a * vx a - vy a * vy a - vz a * vz a.
Definition massive (m : R) (a : vec) := 0 <= m /\ 0 <= vt a /\ m * m <= vm2 a.
Lemma le_of_squares a b : 0 <= b -> a * a <= b * b -> a <= b.
Proof. intros Hb H. destruct (Rle_lt_dec a b) as [|L]; [assumption|]. exfalso. nra. Qed.
Lemma massive_plus m n a b : massive m a -> massive n b -> massive (m + n) (vplus a b).
Proof.
  destruct a as [x y z t], b as [x' y' z' t']. unfold massive, vm2, vplus. cbn. intros (Hm & Ht & H) (Hn & Ht' & H'). split; [lra|]. split; [lra|].
  assert (CS : m * n + x * x' + y * y' + z * z' <= t * t').
  { apply le_of_squares; [apply Rmult_le_pos; assumption|].
    assert (A : (m * n + x * x' + y * y' + z * z') * (m * n + x * x' + y * y' + z * z') <= (m * m + x * x + y * y + z * z) * (n * n + x' * x' + y' * y' + z' * z')).
    { pose proof (Rle_0_sqr (m * x' - x * n)) as S1. pose proof (Rle_0_sqr (m * y' - y * n)) as S2. pose proof (Rle_0_sqr (m * z' - z * n)) as S3.
      pose proof (Rle_0_sqr (x * y' - y * x')) as S4. pose proof (Rle_0_sqr (x * z' - z * x')) as S5. pose proof (Rle_0_sqr (y * z' - z * y')) as S6. unfold Rsqr in *. nra. }
    assert (B : (m * m + x * x + y * y + z * z) * (n * n + x' * x' + y' * y' + z' * z') <= (t * t) * (t' * t')).
    { apply Rmult_le_compat; nra. }
    nra. }
  nra.
Qed.
Fixpoint vsum (f : nat -> vec) (l : list nat) : vec := match l with [] => vzero | i :: r => vplus (f i) (vsum f r) end.
Lemma massive_sum (mu : nat -> R) f l : (forall i, In i l -> massive (mu i) (f i)) -> massive (sum mu l) (vsum f l).
Proof.
  induction l as [| i l IH]; intro H; cbn; [unfold massive, vm2; cbn; lra|]. apply massive_plus; [apply H; left; reflexivity | apply IH; intros j Hj; apply H; right; exact Hj].
Qed.
Lemma vplus_assoc a b c : vplus a (vplus b c) = vplus (vplus a b) c.
Proof. unfold vplus. cbn. f_equal; lra. Qed.
Lemma vplus_comm a b : vplus a b = vplus b a.
Proof. unfold vplus. f_equal; lra. Qed.
Lemma vsum_app f a b : vsum f (a ++ b) = vplus (vsum f a) (vsum f b).
Proof. induction a as [| i a IH]; cbn; [unfold vplus; destruct (vsum f b); cbn; f_equal; lra|]. rewrite IH. apply vplus_assoc. Qed.
Lemma vsum_perm f a b : Permutation a b -> vsum f a = vsum f b.
Proof. induction 1; cbn; [reflexivity | congruence | rewrite !vplus_assoc, (vplus_comm (f y)); reflexivity | congruence]. Qed.

Definition momentum (e : list R) (i : nat) : vec := Vec (at_ e (4 * i + 0)) (at_ e (4 * i + 1)) (at_ e (4 * i + 2)) (at_ e (4 * i + 3)).
Lemma mass2_vsum e l : mass2 e l = vm2 (vsum (momentum e) l).
Proof.
  unfold mass2. cbv zeta. assert (A : forall l, vsum (momentum e) l = Vec (sum (fun i => at_ e (4 * i + 0)) l) (sum (fun i => at_ e (4 * i + 1)) l) (sum (fun i => at_ e (4 * i + 2)) l) (sum (fun i => at_ e (4 * i + 3)) l)).
  { clear. induction l as [| i l IH]; cbn [vsum sum]; [reflexivity|]. rewrite IH. reflexivity. }
  rewrite A. reflexivity.
Qed.
Lemma app_nodup (l rest : list nat) : NoDup l -> NoDup rest -> (forall x, In x l -> ~ In x rest) -> NoDup (l ++ rest).
Proof.
  induction l as [| b l IH]; intros H1 H2 H3; cbn; [exact H2|]. inversion H1; subst. constructor.
  - rewrite in_app_iff. intros [C|C]; [contradiction | exact (H3 b (or_introl eq_refl) C)].
  - apply IH; [assumption | exact H2 | intros x Hx; apply H3; right; exact Hx].
Qed.
(** A set of particles has at least the sum of their masses and at most what the others leave. *)
Theorem mass_range M ms e indices : decay M ms e -> NoDup indices -> (forall i, In i indices -> (i < List.length ms)%nat) ->
  let mu i := List.nth i ms 0 in
  let rest := filter (fun i => negb (existsb (Nat.eqb i) indices)) (seq 0 (List.length ms)) in
  0 <= sum mu indices /\ sum mu indices <= M - sum mu rest /\
  sum mu indices * sum mu indices <= mass2 e indices <= (M - sum mu rest) * (M - sum mu rest).
Proof.
  intros (HM & HL & HT & HD) Hn Hi mu rest.
  assert (MS : forall l, (forall i, In i l -> (i < List.length ms)%nat) -> massive (sum mu l) (vsum (momentum e) l)).
  { intros l Hl. apply massive_sum. intros i Hin. assert (E : nth_error ms i = Some (mu i)) by (apply nth_error_nth'; apply Hl; exact Hin).
    destruct (HD i (mu i) E) as (H1 & H2 & H3). split; [exact H1|]. split; [exact H2|]. rewrite mass2_vsum in H3. cbn [vsum] in H3.
    replace (vplus (momentum e i) vzero) with (momentum e i) in H3 by (unfold vplus, vzero, momentum; cbn [vx vy vz vt]; f_equal; lra). lra. }
  assert (P : Permutation (indices ++ rest) (seq 0 (List.length ms))).
  { assert (NR : NoDup rest) by (unfold rest; apply NoDup_filter; apply seq_NoDup).
    assert (IR : forall x, In x rest <-> (x < List.length ms)%nat /\ ~ In x indices).
    { intro x. unfold rest. rewrite filter_In, in_seq, negb_true_iff. split; intros [H1 H2].
      - split; [lia|]. intro C. assert (existsb (Nat.eqb x) indices = true) by (apply existsb_exists; exists x; split; [exact C | apply Nat.eqb_refl]). congruence.
      - split; [lia|]. destruct (existsb (Nat.eqb x) indices) eqn:Q; [| reflexivity]. apply existsb_exists in Q as (y & Hy & Ey). apply Nat.eqb_eq in Ey. subst y. contradiction. }
    apply NoDup_Permutation.
    - apply app_nodup; [exact Hn | exact NR |]. intros x Hx C. apply IR in C. apply (proj2 C). exact Hx.
    - apply seq_NoDup.
    - intro x. rewrite in_app_iff, IR, in_seq. split; [intros [H|[H _]]; [apply Hi in H; lia | lia]|]. intro H. destruct (in_dec Nat.eq_dec x indices); [auto | right; split; [lia | assumption]]. }
  pose proof (MS indices Hi) as (A1 & A2 & A3).
  assert (B : massive (sum mu rest) (vsum (momentum e) rest)). { apply MS. intros i H. unfold rest in H. apply filter_In in H as [H _]. apply in_seq in H. lia. }
  set (s := vm2 (vsum (momentum e) indices)) in *. assert (Hs : 0 <= s) by nra.
  assert (C : massive (sqrt s) (vsum (momentum e) indices)). { split; [apply sqrt_pos|]. split; [exact A2|]. rewrite sqrt_sqrt by exact Hs. unfold s. lra. }
  pose proof (massive_plus _ _ _ _ C B) as (D1 & D2 & D3). rewrite <- vsum_app, (vsum_perm _ _ _ P), <- mass2_vsum, HT in D3.
  assert (E1 : sqrt s + sum mu rest <= M) by (apply le_of_squares; assumption).
  assert (E2 : sum mu indices <= sqrt s). { apply le_of_squares; [apply sqrt_pos|]. rewrite sqrt_sqrt by exact Hs. exact A3. }
  rewrite mass2_vsum. fold s. split; [exact A1|]. split; [lra|]. split; [exact A3|].
  rewrite <- (sqrt_sqrt s Hs) at 1. pose proof (sqrt_pos s). apply Rmult_le_compat; lra.
Qed.

(** ** minmax and the projections *)
Lemma nth_at e k : (k < List.length e)%nat -> nth_error e k = Some (at_ e k).
Proof. intro H. apply nth_error_nth'. exact H. Qed.
Lemma block_ok e i : (4 * i + 3 < List.length e)%nat -> Events.Model.block R e i = Ok (at_ e (4 * i + 0), at_ e (4 * i + 1), at_ e (4 * i + 2), at_ e (4 * i + 3)).
Proof. intro H. unfold Events.Model.block, Events.Model.get. rewrite !nth_at by lia. cbn [of_opt bind]. rewrite Nat.add_0_r. reflexivity. Qed.
Lemma quad_eq (a b c d a' b' c' d' : R) : a = a' -> b = b' -> c = c' -> d = d' -> Ok (a, b, c, d) = Ok (a', b', c', d').
Proof. intros -> -> -> ->. reflexivity. Qed.
Lemma sum4_ok e l : (forall i, In i l -> (4 * i + 3 < List.length e)%nat) -> forall a b c d,
  Events.Model.sum4 R Rplus e l (a, b, c, d) = Ok (a + sum (fun i => at_ e (4 * i + 0)) l, b + sum (fun i => at_ e (4 * i + 1)) l, c + sum (fun i => at_ e (4 * i + 2)) l, d + sum (fun i => at_ e (4 * i + 3)) l).
Proof.
  induction l as [| i l IH]; intros H a b c d; cbn [Events.Model.sum4 sum]; [apply quad_eq; lra|]. rewrite block_ok by (apply H; left; reflexivity). cbn [bind].
  rewrite IH by (intros j Hj; apply H; right; exact Hj). apply quad_eq; lra.
Qed.
Lemma s_all_ok e l : (forall i, In i l -> (4 * i + 3 < List.length e)%nat) -> Events.Model.s_all R 0 Rplus Rminus Rmult e l = Ok (mass2 e l).
Proof.
  intro H. unfold Events.Model.s_all, mass2. cbv zeta. destruct l as [| i [| j [| k [| q l]]]].
  - cbn. f_equal; lra.
  - rewrite sum4_ok by exact H. cbn [bind sum]. f_equal; lra.
  - unfold Events.Model.s2. rewrite (block_ok e i), (block_ok e j) by (apply H; cbn; auto). cbn [bind sum]. f_equal; lra.
  - unfold Events.Model.s3. rewrite (block_ok e i), (block_ok e j), (block_ok e k) by (apply H; cbn; auto). cbn [bind sum]. f_equal; lra.
  - rewrite sum4_ok by exact H. cbn [bind]. f_equal. lra.
Qed.
Lemma add_masses_ok t l : (forall i, In i l -> (i < List.length (masses t))%nat) -> forall a, add_masses t l a = Ok (a + sum (fun i => List.nth i (masses t) 0) l).
Proof.
  induction l as [| i l IH]; intros H a; cbn [add_masses sum]; [f_equal; lra|]. unfold mass. rewrite (nth_error_nth' _ 0) by (apply H; left; reflexivity). cbn [of_opt bind].
  rewrite IH by (intros j Hj; apply H; right; exact Hj). f_equal. lra.
Qed.
Lemma take_masses_ok t ind l : (forall i, In i l -> (i < List.length (masses t))%nat) -> forall a,
  take_masses t ind l a = Ok (a - sum (fun i => List.nth i (masses t) 0) (filter (fun i => negb (existsb (Nat.eqb i) ind)) l)).
Proof.
  induction l as [| i l IH]; intros H a; cbn [take_masses filter]; [cbn; f_equal; lra|]. destruct (existsb (Nat.eqb i) ind); cbn [negb].
  - apply IH. intros j Hj. apply H. right. exact Hj.
  - unfold mass. rewrite (nth_error_nth' _ 0) by (apply H; left; reflexivity). cbn [of_opt bind sum]. rewrite IH by (intros j Hj; apply H; right; exact Hj). f_equal. lra.
Qed.
Lemma minmax_ok t M indices : motherMass t = Some M -> List.length (masses t) = size t -> (forall i, In i indices -> (i < size t)%nat) ->
  minmax t indices = Ok (sum (fun i => List.nth i (masses t) 0) indices,
                         M - sum (fun i => List.nth i (masses t) 0) (filter (fun i => negb (existsb (Nat.eqb i) indices)) (seq 0 (List.length (masses t))))).
Proof.
  intros HM HL Hi. unfold minmax. rewrite add_masses_ok by (intros i H; rewrite HL; apply Hi; exact H). cbn [bind]. rewrite HM. cbn [of_opt bind].
  rewrite take_masses_ok by (intros i H; apply in_seq in H; lia). cbn [bind]. rewrite HL. do 2 f_equal. lra.
Qed.
