From Verif.Common Require Import Prelude Writes.
From Coq Require Import Reals Lra Lia Sorted Permutation Bool.
From Verif.Events Require Model.
From Verif.Types Require Import Model Spec.
Local Open Scope nat_scope.

(** ** Combinations *)
Fixpoint masks (n t : nat) : list (list bool) :=
  match n with
  | 0 => match t with 0 => [[]] | _ => [] end
  | S n' => map (cons false) (masks n' t) ++ match t with 0 => [] | S t' => map (cons true) (masks n' t') end
  end.
Definition first_mask (n t : nat) := repeat false (n - t) ++ repeat true t.
Definition last_mask (n t : nat) := repeat true t ++ repeat false (n - t).
Fixpoint linked (l : list (list bool)) : Prop :=
  match l with [] => True | a :: r => match r with [] => True | b :: _ => next_permutation a = Some b end /\ linked r end.
Lemma linked_app l1 : forall a b l2, linked (l1 ++ [a]) -> linked (b :: l2) -> next_permutation a = Some b -> linked ((l1 ++ [a]) ++ b :: l2).
Proof.
  induction l1 as [| x l1 IH]; intros a b l2 H1 H2 H; cbn [app linked] in *; [split; [exact H | exact H2]|].
  destruct H1 as [Hx H1]. split; [| apply IH; assumption]. destruct l1 as [| y l1]; exact Hx.
Qed.
Lemma linked_cons x l : linked l -> linked (map (cons x) l).
Proof.
  induction l as [| a l IH]; [trivial|]. cbn [map linked]. intros [H1 H2]. split; [| apply IH; exact H2]. destruct l as [| b l]; [trivial|]. cbn [map].
  cbn [next_permutation]. rewrite H1. reflexivity.
Qed.
Lemma lower_falses b : lower_last (repeat false b) = None.
Proof. induction b as [| b IH]; [reflexivity|]. cbn. rewrite IH. reflexivity. Qed.
Lemma lower_trues a b : lower_last (repeat true (S a) ++ repeat false b) = Some (repeat true a ++ repeat false (S b)).
Proof.
  induction a as [| a IH]; [cbn; rewrite lower_falses; reflexivity|]. change (repeat true (S (S a)) ++ repeat false b) with (true :: repeat true (S a) ++ repeat false b).
  cbn [lower_last]. rewrite IH. reflexivity.
Qed.
Lemma next_falses b : next_permutation (repeat false b) = None.
Proof. induction b as [| b IH]; [reflexivity|]. cbn. rewrite IH, lower_falses. reflexivity. Qed.
Lemma next_last a b : next_permutation (repeat true a ++ repeat false b) = None.
Proof. induction a as [| a IH]; [apply next_falses|]. cbn. rewrite IH. reflexivity. Qed.
Lemma rev_repeat {A} (x : A) n : rev (repeat x n) = repeat x n.
Proof. induction n as [| n IH]; [reflexivity|]. cbn. rewrite IH. symmetry. apply repeat_cons. Qed.
Lemma next_carry a b : next_permutation (false :: repeat true (S a) ++ repeat false b) = Some (true :: repeat false (S b) ++ repeat true a).
Proof. cbn [next_permutation]. rewrite next_last, lower_trues, rev_app_distr, !rev_repeat. reflexivity. Qed.
Lemma masks_none n : forall t, n < t -> masks n t = [].
Proof.
  induction n as [| n IH]; intros t H; cbn; [destruct t; [lia | reflexivity]|]. rewrite IH by lia. destruct t as [| t]; [lia|]. rewrite IH by lia. reflexivity.
Qed.
Lemma masks_ok n : forall t, t <= n -> linked (masks n t) /\ (exists r, masks n t = first_mask n t :: r) /\ (exists q, masks n t = q ++ [last_mask n t]).
Proof.
  induction n as [| n IH]; intros t H.
  - assert (t = 0) by lia. subst t. cbn. split; [auto|]. split; [exists []; reflexivity | exists []; reflexivity].
  - cbn [masks]. destruct t as [| t].
    + rewrite app_nil_r. destruct (IH 0 ltac:(lia)) as (L & (r & R) & (q & Q)). split; [apply linked_cons; exact L|]. split.
      * exists (map (cons false) r). rewrite R. cbn [map]. f_equal. unfold first_mask. rewrite !Nat.sub_0_r. reflexivity.
      * exists (map (cons false) q). rewrite Q, map_app. cbn [map]. unfold last_mask. rewrite !Nat.sub_0_r. reflexivity.
    + destruct (IH t ltac:(lia)) as (L & (r & R) & (q & Q)). destruct (Nat.eq_dec t n) as [->|Hne].
      * rewrite (masks_none n (S n)) by lia. cbn [map app]. split; [apply linked_cons; exact L|]. split.
        -- exists (map (cons true) r). rewrite R. cbn [map]. f_equal. unfold first_mask. rewrite !Nat.sub_diag. reflexivity.
        -- exists (map (cons true) q). rewrite Q, map_app. cbn [map]. unfold last_mask. cbn [Nat.sub]. reflexivity.
      * destruct (IH (S t) ltac:(lia)) as (L' & (r' & R') & (q' & Q')). split; [| split].
        -- rewrite Q', R, map_app. cbn [map]. apply linked_app.
           ++ pose proof (linked_cons false _ L') as X. rewrite Q', map_app in X. exact X.
           ++ pose proof (linked_cons true _ L) as X. rewrite R in X. exact X.
           ++ unfold last_mask, first_mask. rewrite next_carry. replace (S (n - S t)) with (n - t) by lia. reflexivity.
        -- rewrite R'. cbn [map app]. eexists. f_equal. unfold first_mask. replace (S n - S t) with (S (n - S t)) by lia. reflexivity.
        -- exists (map (cons false) (masks n (S t)) ++ map (cons true) q). rewrite Q, map_app, app_assoc. cbn [map]. unfold last_mask. reflexivity.
Qed.
Lemma masks_length n : forall t, List.length (masks n t) <= 2 ^ n.
Proof.
  induction n as [| n IH]; intro t; [destruct t; cbn; lia|]. cbn [masks]. rewrite app_length, map_length. destruct t as [| t].
  - pose proof (IH 0). cbn [List.length Nat.pow]. lia.
  - rewrite map_length. pose proof (IH t). pose proof (IH (S t)). cbn [Nat.pow]. lia.
Qed.
Lemma loop_ok : forall r q a fuel z, linked (a :: r) -> a :: r = q ++ [z] -> next_permutation z = None -> List.length (a :: r) <= fuel ->
  nCr_loop fuel a = Ok (map (unmasked 0) (a :: r)).
Proof.
  induction r as [| b r IH]; intros q a fuel z L Q N F; (destruct fuel as [| fuel]; [cbn in F; lia|]); cbn [nCr_loop].
  - assert (a = z) by (destruct q as [| x q]; [injection Q; auto | destruct q; discriminate]). subst z. rewrite N. reflexivity.
  - destruct L as [L1 L2]. rewrite L1. destruct q as [| x q]; [discriminate|]. injection Q as <- Q. rewrite (IH q b fuel z L2 Q N) by (cbn in *; lia). reflexivity.
Qed.
Lemma nCr_masks n r : r <= n -> nCr n r = Ok (map (unmasked 0) (masks n (n - r))).
Proof.
  intro H. unfold nCr. rewrite (proj2 (Nat.leb_le _ _) H). destruct (masks_ok n (n - r) ltac:(lia)) as (L & (t & R) & (q & Q)).
  replace (repeat false r ++ repeat true (n - r)) with (first_mask n (n - r)) by (unfold first_mask; replace (n - (n - r)) with r by lia; reflexivity).
  pose proof (masks_length n (n - r)) as F. rewrite R in *. apply (loop_ok t q _ _ (last_mask n (n - r))); try assumption. apply next_last.
Qed.
Lemma masks_in n : forall t m, In m (masks n t) <-> List.length m = n /\ count_occ bool_dec m true = t.
Proof.
  induction n as [| n IH]; intros t m.
  - cbn. destruct t as [| t]; cbn; split.
    + intros [<-|[]]. auto. + intros [H _]. destruct m; [auto | discriminate]. + intros []. + intros [H E]. destruct m; discriminate.
  - cbn [masks]. rewrite in_app_iff. split.
    + intros [H|H].
      * apply in_map_iff in H as (x & <- & H). apply IH in H as [H1 H2]. cbn. rewrite H1. auto.
      * destruct t as [| t]; [destruct H|]. apply in_map_iff in H as (x & <- & H). apply IH in H as [H1 H2]. cbn. rewrite H1, H2. auto.
    + intros [H1 H2]. destruct m as [| b m]; [discriminate|]. injection H1 as H1. destruct b.
      * right. cbn in H2. destruct t as [| t]; [discriminate|]. injection H2 as H2. apply in_map. apply IH. auto.
      * left. cbn in H2. apply in_map. apply IH. auto.
Qed.
Lemma masks_nodup n : forall t, NoDup (masks n t).
Proof.
  assert (A : forall x (l : list (list bool)), NoDup l -> NoDup (map (cons x) l)).
  { intros x l H. apply FinFun.Injective_map_NoDup; [| exact H]. intros a b E. injection E. auto. }
  induction n as [| n IH]; intro t; [destruct t; cbn; constructor; [intros [] | constructor]|]. cbn [masks].
  assert (B : forall l1 l2 : list (list bool), NoDup l1 -> NoDup l2 -> NoDup (map (cons false) l1 ++ map (cons true) l2)).
  { induction l1 as [| a l1 IH1]; intros l2 H1 H2; cbn [map app]; [apply A; exact H2|]. inversion H1; subst. constructor; [| apply IH1; assumption].
    rewrite in_app_iff, !in_map_iff. intros [(y & E & Hy)|(y & E & Hy)]; [injection E as ->; contradiction | discriminate]. }
  destruct t as [| t]; [rewrite app_nil_r; apply A; apply IH | apply B; apply IH].
Qed.
Lemma unmasked_in m : forall i k, In k (unmasked i m) <-> i <= k /\ nth_error m (k - i) = Some false.
Proof.
  induction m as [| b m IH]; intros i k; cbn [unmasked]; [split; [intros [] | intros [_ H]; destruct (k - i); discriminate]|].
  assert (Q : In k (unmasked (S i) m) <-> i < k /\ nth_error (b :: m) (k - i) = Some false).
  { rewrite IH. split; intros [H E]; (split; [lia|]); replace (k - i) with (S (k - S i)) in * by lia; exact E. }
  destruct b.
  - rewrite Q. split; intros [H E]; [split; [lia | exact E]|]. destruct (Nat.eq_dec k i) as [->|]; [rewrite Nat.sub_diag in E; discriminate | split; [lia | exact E]].
  - cbn [In]. rewrite Q. split.
    + intros [<-|[H E]]; [rewrite Nat.sub_diag; auto | split; [lia | exact E]].
    + intros [H E]. destruct (Nat.eq_dec k i) as [->|]; [auto | right; split; [lia | exact E]].
Qed.
Lemma unmasked_sorted m : forall i, StronglySorted lt (unmasked i m).
Proof.
  induction m as [| b m IH]; intro i; cbn; [constructor|]. destruct b; [apply IH|]. constructor; [apply IH|]. apply Forall_forall. intros k Hk. apply unmasked_in in Hk. lia.
Qed.
Lemma unmasked_length m : forall i, List.length (unmasked i m) + count_occ bool_dec m true = List.length m.
Proof. induction m as [| b m IH]; intro i; cbn; [reflexivity|]. destruct b; cbn; rewrite <- (IH (S i)); lia. Qed.
Lemma sorted_eq (a : list nat) : forall b, StronglySorted lt a -> StronglySorted lt b -> (forall x, In x a <-> In x b) -> a = b.
Proof.
  induction a as [| x a IH]; intros b Ha Hb H; [destruct b as [| y b]; [reflexivity | destruct (proj2 (H y)); left; reflexivity]|].
  destruct b as [| y b]; [destruct (proj1 (H x)); left; reflexivity|]. inversion Ha as [| ? ? Ha' Fa]; subst. inversion Hb as [| ? ? Hb' Fb]; subst.
  rewrite Forall_forall in Fa, Fb.
  assert (x = y). { destruct (proj1 (H x) (or_introl eq_refl)) as [E|E]; [congruence|]. destruct (proj2 (H y) (or_introl eq_refl)) as [E'|E']; [congruence|]. apply Fb in E. apply Fa in E'. lia. }
  subst y. f_equal. apply IH; try assumption. intro z. split; intro Hz.
  - destruct (proj1 (H z) (or_intror Hz)) as [E|E]; [apply Fa in Hz; lia | exact E].
  - destruct (proj2 (H z) (or_intror Hz)) as [E|E]; [apply Fb in Hz; lia | exact E].
Qed.
Lemma unmasked_inj n m m' : List.length m = n -> List.length m' = n -> unmasked 0 m = unmasked 0 m' -> m = m'.
Proof.
  intros H H' E. apply nth_error_ext_eq. intro i. pose proof (unmasked_in m 0 i) as A. pose proof (unmasked_in m' 0 i) as B. rewrite E in A. rewrite Nat.sub_0_r in A, B.
  destruct (nth_error m i) as [b|] eqn:X, (nth_error m' i) as [b'|] eqn:Y; try reflexivity.
  - destruct b, b'; try reflexivity.
    + assert (In i (unmasked 0 m')) by (apply B; split; [lia | reflexivity]). apply A in H0 as [_ Z]. discriminate.
    + assert (In i (unmasked 0 m')) by (apply A; split; [lia | reflexivity]). apply B in H0 as [_ Z]. discriminate.
  - apply nth_error_None in Y. assert (i < List.length m) by (apply nth_error_Some; congruence). lia.
  - apply nth_error_None in X. assert (i < List.length m') by (apply nth_error_Some; congruence). lia.
Qed.
Theorem nCr_ok n r : r <= n -> exists cs, nCr n r = Ok cs /\ NoDup cs /\ forall c, In c cs <-> choice n r c.
Proof.
  intro H. exists (map (unmasked 0) (masks n (n - r))). split; [apply nCr_masks; exact H|]. split.
  - assert (G : forall l, NoDup l -> (forall m, In m l -> List.length m = n) -> NoDup (map (unmasked 0) l)).
    { induction l as [| a l IH]; intros Hn Hl; cbn; [constructor|]. inversion Hn; subst. constructor.
      - intro X. apply in_map_iff in X as (y & E & Hy). apply unmasked_inj with (n := n) in E; [subst; contradiction | apply Hl; right; exact Hy | apply Hl; left; reflexivity].
      - apply IH; [assumption | intros m Hm; apply Hl; right; exact Hm]. }
    apply G; [apply masks_nodup|]. intros m Hm. apply masks_in in Hm. apply Hm.
  - intro c. rewrite in_map_iff. split.
    + intros (m & <- & Hm). apply masks_in in Hm as [H1 H2]. split; [pose proof (unmasked_length m 0); lia|]. split; [apply unmasked_sorted|].
      apply Forall_forall. intros k Hk. apply unmasked_in in Hk as [_ Hk]. rewrite <- H1. apply nth_error_Some. rewrite Nat.sub_0_r in Hk. congruence.
    + intros (H1 & H2 & H3). rewrite Forall_forall in H3. set (m := map (fun k => negb (existsb (Nat.eqb k) c)) (seq 0 n)).
      assert (Lm : List.length m = n) by (unfold m; rewrite map_length; apply seq_length).
      assert (E : unmasked 0 m = c).
      { apply sorted_eq; [apply unmasked_sorted | exact H2|]. intro k. rewrite unmasked_in, Nat.sub_0_r. unfold m. rewrite nth_error_map. split.
        - intros [_ X]. destruct (nth_error (seq 0 n) k) as [j|] eqn:J; [| discriminate]. cbn in X. injection X as X. apply negb_false_iff in X. apply existsb_exists in X as (y & Hy & Ey).
          apply Nat.eqb_eq in Ey. subst y. assert (k < n) by (rewrite <- (seq_length n 0); apply nth_error_Some; congruence). rewrite (nth_error_nth' _ 0), seq_nth in J by (rewrite ?seq_length; assumption).
          injection J as <-. exact Hy.
        - intro Hk. split; [lia|]. pose proof (H3 k Hk) as Hn. rewrite (nth_error_nth' _ 0), seq_nth by (rewrite ?seq_length; assumption). cbn. f_equal. apply negb_false_iff. apply existsb_exists.
          exists k. split; [exact Hk | apply Nat.eqb_refl]. }
      exists m. split; [exact E|]. apply masks_in. split; [exact Lm|]. pose proof (unmasked_length m 0) as U. rewrite E, Lm in U. lia.
Qed.
