(** Proofs about the binning trees made from a sample. *)
From Verif.Binning Require Import Spec.
From Coq Require Import Lqa.
Local Open Scope nat_scope.

Lemma Qlt_bool_true a b : Qlt_bool a b = true <-> (a < b)%Q.
Proof.
  unfold Qlt_bool. rewrite negb_true_iff. split; intro H.
  - destruct (Qlt_le_dec a b) as [L|L]; [exact L|]. apply Qle_bool_iff in L. congruence.
  - destruct (Qle_bool b a) eqn:E; [|reflexivity]. apply Qle_bool_iff in E. exfalso; lra.
Qed.
Lemma Qlt_bool_false a b : Qlt_bool a b = false <-> (b <= a)%Q.
Proof.
  unfold Qlt_bool. rewrite negb_false_iff. apply Qle_bool_iff.
Qed.

Lemma filter_perm {A} (f : A -> bool) l l' : Permutation l l' -> Permutation (filter f l) (filter f l').
Proof.
  induction 1 as [|x l l' H IH|x y l|l m n _ IH1 _ IH2]; cbn [filter]; [constructor| | |now transitivity (filter f m)].
  - destruct (f x); [now constructor|exact IH].
  - destruct (f x), (f y); try reflexivity. apply perm_swap.
Qed.
Lemma filter_none {A} (f : A -> bool) l : (forall x, In x l -> f x = false) -> filter f l = [].
Proof. induction l as [|x l IH]; intro H; [reflexivity|]. cbn. rewrite (H x (or_introl eq_refl)). apply IH. intros; apply H; now right. Qed.
Lemma filter_id {A} (f : A -> bool) l : (forall x, In x l -> f x = true) -> filter f l = l.
Proof. induction l as [|x l IH]; intro H; [reflexivity|]. cbn. rewrite (H x (or_introl eq_refl)). f_equal. apply IH. intros; apply H; now right. Qed.

Lemma concat_filter {A} (f : nat -> A -> bool) : forall (ends : list (list A)) off,
  (forall k l, nth_error ends k = Some l -> forall x, In x l -> forall b, f b x = (off + k =? b)) ->
  forall k l, nth_error ends k = Some l -> filter (f (off + k)) (List.concat ends) = l.
Proof.
  induction ends as [|e ends IH]; intros off H k l E; [destruct k; discriminate|].
  cbn [List.concat]. rewrite filter_app. destruct k as [|k].
  - injection E as ->. rewrite filter_id, filter_none, app_nil_r; [reflexivity| |].
    + intros x Hx. apply in_concat in Hx as (l' & Hl & Hx). apply In_nth_error in Hl as (k & Hk).
      rewrite (H (S k) l' Hk x Hx). apply Nat.eqb_neq. lia.
    + intros x Hx. rewrite (H 0 l eq_refl x Hx). now apply Nat.eqb_eq.
  - rewrite filter_none.
    + cbn [app]. replace (off + S k) with (S off + k) by lia. apply IH; [|exact E].
      intros k' l' E' x Hx b. rewrite (H (S k') l' E' x Hx). f_equal. lia.
    + intros x Hx. rewrite (H 0 e eq_refl x Hx). apply Nat.eqb_neq. lia.
Qed.

Lemma sorted_nth {A} (R : A -> A -> Prop) s d : StronglySorted R s -> forall j k, j < k -> k < List.length s -> R (nth j s d) (nth k s d).
Proof.
  induction 1 as [|x s S IH F]; intros j k H K; [cbn in K; lia|]. destruct k as [|k]; [lia|]. cbn in K.
  destruct j as [|j]; cbn [nth].
  - rewrite Forall_forall in F. apply F. apply nth_In. lia.
  - apply IH; lia.
Qed.

Lemma complete_perm d l l' : Permutation l l' -> complete d l -> complete d l'.
Proof. intros P H. apply Forall_forall. intros x Hx. eapply (proj1 (Forall_forall _ _) H). now rewrite P. Qed.
Lemma complete_app d l l' : complete d (l ++ l') <-> complete d l /\ complete d l'.
Proof. apply Forall_app. Qed.
Lemma distinct_perm d l l' : Permutation l l' -> distinct d l -> distinct d l'.
Proof. intros P H i Hi. eapply Permutation_NoDup; [|apply (H i Hi)]. now apply Permutation_map. Qed.
Lemma nodup_app {A} (l l' : list A) : NoDup (l ++ l') -> NoDup l /\ NoDup l'.
Proof.
  induction l as [|x l IH]; intro H; [split; [constructor|exact H]|]. inversion H as [|? ? N D]; subst. apply IH in D as [D1 D2].
  split; [|exact D2]. constructor; [|exact D1]. intro K. apply N. apply in_or_app. now left.
Qed.
Lemma distinct_app d l l' : distinct d (l ++ l') -> distinct d l /\ distinct d l'.
Proof. intro H. split; intros i Hi; specialize (H i Hi); rewrite map_app in H; now apply nodup_app in H. Qed.
Lemma readable_complete i d l : i < d -> complete d l -> readable i l = true.
Proof. intros H C. apply forallb_forall. intros e He. apply Nat.ltb_lt. pose proof (proj1 (Forall_forall _ _) C e He) as K. cbn in K. lia. Qed.
Lemma unaligned_perm d l l' : Permutation l l' -> unaligned d l -> unaligned d l'.
Proof. intros P H i a b e r Hi Q. apply (H i a b e r Hi). now rewrite P. Qed.
Lemma unaligned_app d l l' : unaligned d (l ++ l') -> unaligned d l /\ unaligned d l'.
Proof.
  intro H; split; intros i a b e r Hi Q.
  - apply (H i a b e (r ++ l') Hi). now rewrite Q.
  - apply (H i a b e (l ++ r) Hi). rewrite Q. change (a :: b :: e :: l ++ r) with ([a; b; e] ++ l ++ r).
    change (a :: b :: e :: r) with ([a; b; e] ++ r). rewrite !app_assoc. apply Permutation_app_tail, Permutation_app_comm.
Qed.

Ltac qa := repeat match goal with x := _ : Q |- _ => clearbody x end; lra.

Section Split.
  Variables (sort : nat -> list event -> list event).
  Hypothesis Hsort : sorts_by sort.

  Lemma x_at (s : list event) i k : k < List.length s -> option_map (fun e => at_ e i) (nth_error s k) = Some (at_ (nth k s []) i).
  Proof. intro H. rewrite (nth_error_nth' s [] H). reflexivity. Qed.

  Lemma distinct_nth d s i j k : distinct d s -> i < d -> j < k -> k < List.length s -> ~ (at_ (nth j s []) i == at_ (nth k s []) i)%Q.
  Proof.
    intros D Hi H K E. specialize (D i Hi). apply Qred_complete in E.
    rewrite NoDup_nth_error in D. assert (X : j = k); [|lia]. apply D; [rewrite map_length; lia|].
    rewrite !nth_error_map, (nth_error_nth' s [] K), (nth_error_nth' s []) by lia. cbn. now rewrite E.
  Qed.

  Lemma firstn_nth_in {A} m (s : list A) x d : In x (firstn m s) -> exists j, j < m /\ j < List.length s /\ x = nth j s d.
  Proof.
    intro H. destruct (In_nth _ _ d H) as (j & Hj & E). rewrite firstn_length in Hj. exists j. split; [lia|]. split; [lia|].
    rewrite <- E. rewrite <- (firstn_skipn m s) at 2. rewrite app_nth1; [reflexivity|]. rewrite firstn_length. lia.
  Qed.
  Lemma skipn_nth_in {A} m (s : list A) x d : In x (skipn m s) -> exists j, m <= j /\ j < List.length s /\ x = nth j s d.
  Proof.
    intro H. destruct (In_nth _ _ d H) as (j & Hj & E). rewrite skipn_length in Hj. exists (m + j). split; [lia|]. split; [lia|].
    rewrite <- E. rewrite <- (firstn_skipn m s) at 2. rewrite app_nth2; rewrite firstn_length; [f_equal|]; lia.
  Qed.

  Lemma unaligned_nth d s i j k l : unaligned d s -> i < d -> j < k -> k < l -> l < List.length s ->
    ~ (at_ (nth j s []) i + at_ (nth l s []) i == at_ (nth k s []) i + at_ (nth k s []) i)%Q.
  Proof.
    intros U Hi H1 H2 H3.
    destruct (nth_split s [] H3) as (s1 & s2 & E & L1).
    assert (K1 : nth k s [] = nth k s1 []) by (rewrite E, app_nth1 by lia; reflexivity).
    assert (K2 : nth j s [] = nth j s1 []) by (rewrite E, app_nth1 by lia; reflexivity).
    destruct (@nth_split _ k s1 []) as (s3 & s4 & E2 & L2); [lia|].
    assert (K3 : nth j s1 [] = nth j s3 []) by (rewrite E2, app_nth1 by lia; reflexivity).
    destruct (@nth_split _ j s3 []) as (s5 & s6 & E3 & L3); [lia|].
    rewrite K1, K2, K3. apply (U i _ _ _ (s5 ++ s6 ++ s4 ++ s2) Hi).
    set (a := nth j s3 []) in *. set (b := nth k s1 []) in *. set (e := nth l s []) in *. clearbody a b e.
    rewrite E, E2, E3. rewrite <- !app_assoc. cbn [app].
    rewrite <- Permutation_middle. constructor.
    rewrite app_assoc. rewrite <- Permutation_middle. constructor. rewrite !app_assoc. rewrite <- !app_assoc.
    transitivity (e :: ((s5 ++ s6 ++ s4) ++ s2)).
    - rewrite !app_assoc. rewrite <- Permutation_middle. reflexivity.
    - now rewrite <- !app_assoc.
  Qed.

  Lemma split_ok d i evts : i < d -> complete d evts -> 2 <= List.length evts ->
    exists lo hi v, splitEvents sort evts i = Ok (lo, hi, v) /\ Permutation (lo ++ hi) evts /\
      0 < List.length lo /\ 0 < List.length hi /\
      (forall m, 2 * m <= List.length evts -> m <= List.length lo /\ m <= List.length hi) /\
      (distinct d evts -> Forall (fun e => (at_ e i < v)%Q) lo /\ Forall (fun e => (v <= at_ e i)%Q) hi) /\
      (distinct d evts -> unaligned d evts -> Forall (fun e => (at_ e i <= v)%Q) lo /\ Forall (fun e => (v < at_ e i)%Q) hi).
  Proof.
    intros Hi C L. destruct (Hsort i evts) as [P So]. unfold splitEvents. rewrite (readable_complete i d evts Hi C).
    assert (LP : List.length (sort i evts) = List.length evts) by now apply Permutation_length.
    set (s := sort i evts) in *. cbv zeta. rewrite LP. set (n := List.length evts) in *. clearbody s n.
    pose proof (Nat.div_mod n 2 ltac:(lia)) as DM. pose proof (Nat.mod_upper_bound n 2 ltac:(lia)) as MB.
    set (m := n / 2) in *. clearbody m. destruct m as [|p]; [lia|]. remember (S p) as M eqn:EM.
    rewrite !x_at by lia.
    assert (ev : Nat.even n = (n mod 2 =? 0)).
    { rewrite (Nat.even_spec n) || idtac. destruct (Nat.even n) eqn:E.
      - apply Nat.even_spec in E as [q ->]. symmetry. apply Nat.eqb_eq. rewrite Nat.mul_comm. apply Nat.mod_mul. lia.
      - symmetry. apply Nat.eqb_neq. intro K. apply Nat.mod_divides in K as [q Hq]; [|lia].
        assert (Nat.even n = true) by (apply Nat.even_spec; exists q; lia). congruence. }
    rewrite ev. clear ev.
    assert (mono : forall j k, j <= k -> k < n -> (at_ (nth j s []) i <= at_ (nth k s []) i)%Q).
    { intros j k H K. destruct (Nat.eq_dec j k) as [->|N]; [apply Qle_refl|]. apply (sorted_nth _ s [] So j k); lia. }
    assert (smono : distinct d evts -> forall j k, j < k -> k < n -> (at_ (nth j s []) i < at_ (nth k s []) i)%Q).
    { intros D j k H K. assert (D' : distinct d s) by (apply (distinct_perm d evts); [now symmetry|exact D]).
      pose proof (mono j k ltac:(lia) K) as A. pose proof (distinct_nth d s i j k D' Hi H ltac:(lia)) as B.
      apply Qle_lteq in A as [A|A]; [exact A|contradiction]. }
    assert (un : unaligned d evts -> forall j k l, j < k -> k < l -> l < n -> ~ (at_ (nth j s []) i + at_ (nth l s []) i == at_ (nth k s []) i + at_ (nth k s []) i)%Q).
    { intros U j k l H1 H2 H3. assert (U' : unaligned d s) by (apply (unaligned_perm d evts); [now symmetry|exact U]).
      apply (unaligned_nth d s i j k l U' Hi H1 H2). lia. }
    set (xa := at_ (nth p s []) i) in *. set (xb := at_ (nth M s []) i) in *.
    assert (ab : (xa <= xb)%Q) by (apply mono; lia).
    destruct (n mod 2 =? 0) eqn:Ev.
    - apply Nat.eqb_eq in Ev. cbn [bind].
      assert (V : ((xa + xb) / 2 <= xb)%Q) by (apply Qle_shift_div_r; qa).
      assert (W : (xa <= (xa + xb) / 2)%Q) by (apply Qle_shift_div_l; qa).
      set (v := ((xa + xb) / 2)%Q) in *.
      assert (V0 : (v * 2 == xa + xb)%Q) by (unfold v; field).
      rewrite (proj2 (Qlt_bool_false xb v) V).
      exists (firstn M s), (skipn M s), v. split; [reflexivity|]. clearbody v. rewrite firstn_skipn. split; [exact P|].
      rewrite firstn_length, skipn_length, LP. split; [lia|]. split; [lia|]. split; [intros; lia|]. split.
      + intro D. assert (xa < xb)%Q by (apply smono; [exact D|lia|lia]). split; apply Forall_forall; intros x Hx.
        * destruct (firstn_nth_in _ _ _ [] Hx) as (j & H1 & H2 & ->). apply Qle_lt_trans with xa; [apply mono; clear - H1 H2 LP EM DM MB; lia|qa].
        * destruct (skipn_nth_in _ _ _ [] Hx) as (j & H1 & H2 & ->). apply Qle_trans with xb; [qa|apply mono; clear - H1 H2 LP EM DM MB; lia].
      + intros D _. assert (xa < xb)%Q by (apply smono; [exact D|lia|lia]). split; apply Forall_forall; intros x Hx.
        * destruct (firstn_nth_in _ _ _ [] Hx) as (j & H1 & H2 & ->). apply Qle_trans with xa; [apply mono; clear - H1 H2 LP EM DM MB; lia|qa].
        * destruct (skipn_nth_in _ _ _ [] Hx) as (j & H1 & H2 & ->). apply Qlt_le_trans with xb; [qa|apply mono; clear - H1 H2 LP EM DM MB; lia].
    - apply Nat.eqb_neq in Ev. rewrite x_at by lia. cbn [bind]. set (xc := at_ (nth (S M) s []) i) in *.
      assert (bc : (xb <= xc)%Q) by (apply mono; lia).
      set (v := ((xc + xa + xb) / 3)%Q) in *.
      assert (V0 : (v * 3 == xa + xb + xc)%Q) by (unfold v; field).
      destruct (Qlt_bool xb v) eqn:E.
      + apply Qlt_bool_true in E. exists (firstn (S M) s), (skipn (S M) s), v. split; [reflexivity|]. clearbody v. rewrite firstn_skipn. split; [exact P|].
        rewrite firstn_length, skipn_length, LP. split; [lia|]. split; [lia|]. split; [intros; lia|].
        assert (X : distinct d evts -> (v < xc)%Q).
        { intro D. assert (xb < xc)%Q by (apply smono; [exact D|lia|lia]). qa. }
        split.
        * intro D. specialize (X D). split; apply Forall_forall; intros x Hx.
          -- destruct (firstn_nth_in _ _ _ [] Hx) as (j & H1 & H2 & ->). apply Qle_lt_trans with xb; [apply mono; clear - H1 H2 LP EM DM MB; lia|qa].
          -- destruct (skipn_nth_in _ _ _ [] Hx) as (j & H1 & H2 & ->). apply Qle_trans with xc; [qa|apply mono; clear - H1 H2 LP EM DM MB; lia].
        * intros D _. specialize (X D). split; apply Forall_forall; intros x Hx.
          -- destruct (firstn_nth_in _ _ _ [] Hx) as (j & H1 & H2 & ->). apply Qle_trans with xb; [apply mono; clear - H1 H2 LP EM DM MB; lia|qa].
          -- destruct (skipn_nth_in _ _ _ [] Hx) as (j & H1 & H2 & ->). apply Qlt_le_trans with xc; [qa|apply mono; clear - H1 H2 LP EM DM MB; lia].
      + apply Qlt_bool_false in E. exists (firstn M s), (skipn M s), v. split; [reflexivity|]. clearbody v. rewrite firstn_skipn. split; [exact P|].
        rewrite firstn_length, skipn_length, LP. split; [lia|]. split; [lia|]. split; [intros; lia|].
        assert (X : distinct d evts -> (xa < v)%Q).
        { intro D. assert (xa < xb)%Q by (apply smono; [exact D|lia|lia]). qa. }
        split.
        * intro D. specialize (X D). split; apply Forall_forall; intros x Hx.
          -- destruct (firstn_nth_in _ _ _ [] Hx) as (j & H1 & H2 & ->). apply Qle_lt_trans with xa; [apply mono; clear - H1 H2 LP EM DM MB; lia|qa].
          -- destruct (skipn_nth_in _ _ _ [] Hx) as (j & H1 & H2 & ->). apply Qle_trans with xb; [qa|apply mono; clear - H1 H2 LP EM DM MB; lia].
        * intros D U. specialize (X D). pose proof (un U p M (S M) ltac:(lia) ltac:(lia) ltac:(lia)) as N. fold xa xb xc in N.
          assert (v < xb)%Q.
          { apply Qle_lteq in E as [E|E]; [exact E|]. exfalso. apply N. qa. }
          split; apply Forall_forall; intros x Hx.
          -- destruct (firstn_nth_in _ _ _ [] Hx) as (j & H1 & H2 & ->). apply Qle_trans with xa; [apply mono; clear - H1 H2 LP EM DM MB; lia|qa].
          -- destruct (skipn_nth_in _ _ _ [] Hx) as (j & H1 & H2 & ->). apply Qlt_le_trans with xb; [qa|apply mono; clear - H1 H2 LP EM DM MB; lia].
  Qed.
End Split.
