From Coq Require Import Field Sorted.
From Verif.Common Require Import Prelude.
From Verif.Tensor Require Import Model Spec Invert InvertProofs.
Local Open Scope nat_scope.

Section Stages.
  Variables (V : Type) (v0 v1 : V) (add mul sub : V -> V -> V) (opp : V -> V) (div : V -> V -> V) (inv : V -> V).
  Hypothesis Vfield : field_theory v0 v1 add mul sub opp div inv eq.
  Add Field Vf : Vfield.
  Variable cell : nat -> nat -> nat.
  Variable n : nat.
  Hypothesis Inj : forall i j i' j', i < n -> j < n -> i' < n -> j' < n -> cell i j = cell i' j' -> i = i' /\ j = j'.
  Notation get := (get V cell).
  Notation exec_all := (exec_all V cell).
  Notation good := (@good V n).
  Notation sum := (sum V v0 add).
  Notation diff := (diff V v0 sub).
  Notation vsum := (vsum V v0 add).

  (** ** Sums *)
  Lemma vsum_ext f g m : (forall k, k < m -> f k = g k) -> vsum f m = vsum g m.
  Proof. induction m as [|m IH]; intro H; [reflexivity|]. cbn [Spec.vsum]. rewrite IH by (intros; apply H; lia). now rewrite H by lia. Qed.
  Lemma vsum_zero m : vsum (fun _ => v0) m = v0.
  Proof. induction m as [|m IH]; [reflexivity|]. cbn [Spec.vsum]. rewrite IH. ring. Qed.
  Lemma vsum_add f g m : vsum (fun k => add (f k) (g k)) m = add (vsum f m) (vsum g m).
  Proof. induction m as [|m IH]; cbn [Spec.vsum]; [|rewrite IH]; ring. Qed.
  Lemma vsum_scale s f m : vsum (fun k => mul s (f k)) m = mul s (vsum f m).
  Proof. induction m as [|m IH]; cbn [Spec.vsum]; [|rewrite IH]; ring. Qed.
  Lemma vsum_scale_r s f m : vsum (fun k => mul (f k) s) m = mul (vsum f m) s.
  Proof. induction m as [|m IH]; cbn [Spec.vsum]; [|rewrite IH]; ring. Qed.
  Lemma vsum_swap f m p : vsum (fun i => vsum (fun j => f i j) p) m = vsum (fun j => vsum (fun i => f i j) m) p.
  Proof.
    induction m as [|m IH]; cbn [Spec.vsum]; [now rewrite vsum_zero|]. rewrite IH, <- vsum_add. reflexivity.
  Qed.
  Lemma vsum_single b x m : b < m -> vsum (fun k => if k =? b then x else v0) m = x.
  Proof.
    induction m as [|m IH]; [lia|]. intro H. cbn [Spec.vsum]. destruct (Nat.eq_dec m b) as [->|N].
    - rewrite Nat.eqb_refl. rewrite (vsum_ext _ (fun _ => v0)), vsum_zero; [ring|]. intros k Hk. destruct (k =? b) eqn:E; [apply Nat.eqb_eq in E; lia|reflexivity].
    - rewrite IH by lia. destruct (m =? b) eqn:E; [apply Nat.eqb_eq in E; lia|]. ring.
  Qed.
  Lemma sum_mask f : forall b a, b <= n -> sum a b f = vsum (fun k => if (a <=? k) && (k <? b) then f k else v0) n.
  Proof.
    induction b as [|b IH]; intros a H.
    - unfold Invert.sum. cbn [seq fold_left Nat.sub]. rewrite (vsum_ext _ (fun _ => v0)), vsum_zero; [reflexivity|].
      intros k _. destruct (k <? 0) eqn:E; [apply Nat.ltb_lt in E; lia|]. now rewrite andb_false_r.
    - destruct (Nat.le_gt_cases a b) as [L|L].
      + unfold Invert.sum. replace (S b - a) with (S (b - a)) by lia. rewrite seq_S, fold_left_app. cbn [fold_left].
        fold (sum a b f). rewrite IH by lia. replace (a + (b - a)) with b by lia.
        rewrite <- (vsum_single b (f b) n) by lia. rewrite <- vsum_add. apply vsum_ext. intros k _.
        destruct (Nat.leb_spec a k), (Nat.ltb_spec k b), (Nat.ltb_spec k (S b)), (Nat.eqb_spec k b); cbn [andb]; subst; try lia; ring.
      + unfold Invert.sum. replace (S b - a) with 0 by lia. cbn [seq fold_left]. rewrite (vsum_ext _ (fun _ => v0)), vsum_zero; [reflexivity|].
        intros k _. destruct (Nat.leb_spec a k), (Nat.ltb_spec k (S b)); cbn [andb]; try reflexivity; lia.
  Qed.
  Lemma sum_ext f g a b : (forall k, a <= k -> k < b -> f k = g k) -> sum a b f = sum a b g.
  Proof.
    intro H. unfold Invert.sum. assert (G : forall l s, (forall k, In k l -> f k = g k) ->
      fold_left (fun s k => add s (f k)) l s = fold_left (fun s k => add s (g k)) l s).
    { induction l as [|x l IH]; intros s K; [reflexivity|]. cbn [fold_left]. rewrite K by now left. apply IH. intros k Hk. apply K. now right. }
    apply G. intros k Hk. apply in_seq in Hk. apply H; lia.
  Qed.
  Lemma diff_sum f a b : diff a b f = opp (sum a b f).
  Proof.
    unfold Invert.diff, Invert.sum. assert (G : forall l s, fold_left (fun s k => sub s (f k)) l (opp s) = opp (fold_left (fun s k => add s (f k)) l s)).
    { induction l as [|x l IH]; intro s; [reflexivity|]. cbn [fold_left]. rewrite <- IH. f_equal. ring. }
    rewrite <- G. f_equal. ring.
  Qed.
  Lemma div_mul x y : y <> v0 -> mul y (div x y) = x.
  Proof. intro H. field. exact H. Qed.

  (** ** Matrices *)
  Definition mat := nat -> nat -> V.
  Definition mm (A B : mat) : mat := fun i j => vsum (fun k => mul (A i k) (B k j)) n.
  Definition one : mat := fun i j => if i =? j then v1 else v0.
  Definition meq (A B : mat) : Prop := forall i j, i < n -> j < n -> A i j = B i j.
  Definition lower (D : mat) : mat := fun r c => if c <=? r then D r c else v0.
  Definition upper (D : mat) : mat := fun r c => if r =? c then v1 else if r <? c then D r c else v0.
  Lemma meq_sym A B : meq A B -> meq B A. Proof. intros H i j Hi Hj. symmetry. now apply H. Qed.
  Lemma meq_trans A B C : meq A B -> meq B C -> meq A C. Proof. intros H K i j Hi Hj. rewrite H by assumption. now apply K. Qed.
  Lemma mm_ext A A' B B' : meq A A' -> meq B B' -> meq (mm A B) (mm A' B').
  Proof. intros H K i j Hi Hj. unfold mm. apply vsum_ext. intros k Hk. now rewrite H, K. Qed.
  Lemma meq_refl A : meq A A. Proof. intros i j _ _. reflexivity. Qed.
  Lemma mm_assoc A B C : meq (mm (mm A B) C) (mm A (mm B C)).
  Proof.
    intros i j _ _. unfold mm. rewrite (vsum_ext _ (fun k => vsum (fun l => mul (mul (A i l) (B l k)) (C k j)) n)) by (intros; now rewrite vsum_scale_r).
    rewrite vsum_swap. apply vsum_ext. intros l _. rewrite <- vsum_scale. apply vsum_ext. intros k _. ring.
  Qed.
  Lemma mm_one_l A : meq (mm one A) A.
  Proof.
    intros i j Hi Hj. unfold mm, one. rewrite <- (vsum_single i (A i j) n Hi). apply vsum_ext. intros k _. rewrite (Nat.eqb_sym i k).
    destruct (Nat.eqb_spec k i); subst; ring.
  Qed.
  Lemma mm_one_r A : meq (mm A one) A.
  Proof.
    intros i j Hi Hj. unfold mm, one. rewrite <- (vsum_single j (A i j) n Hj). apply vsum_ext. intros k _.
    destruct (Nat.eqb_spec k j); subst; ring.
  Qed.
  (** X right inverse of L and Z right inverse of X: X also left inverse of L. *)
  Lemma two_sided L X Z : meq (mm L X) one -> meq (mm X Z) one -> meq (mm X L) one.
  Proof.
    intros H K. assert (E : meq L Z).
    { apply meq_trans with (mm L one); [apply meq_sym, mm_one_r|]. apply meq_trans with (mm L (mm X Z)); [apply mm_ext; [apply meq_refl|now apply meq_sym]|].
      apply meq_trans with (mm (mm L X) Z); [apply meq_sym, mm_assoc|]. apply meq_trans with (mm one Z); [|apply mm_one_l]. apply mm_ext; [assumption|apply meq_refl]. }
    apply meq_trans with (mm X Z); [|exact K]. apply mm_ext; [apply meq_refl|exact E].
  Qed.
  Lemma two_sided' U W Z : meq (mm W U) one -> meq (mm Z W) one -> meq (mm U W) one.
  Proof.
    intros H K. assert (E : meq Z U).
    { apply meq_trans with (mm Z one); [apply meq_sym, mm_one_r|]. apply meq_trans with (mm Z (mm W U)); [apply mm_ext; [apply meq_refl|now apply meq_sym]|].
      apply meq_trans with (mm (mm Z W) U); [apply meq_sym, mm_assoc|]. apply meq_trans with (mm one U); [|apply mm_one_l]. apply mm_ext; [assumption|apply meq_refl]. }
    apply meq_trans with (mm Z W); [|exact K]. apply mm_ext; [now apply meq_sym|apply meq_refl].
  Qed.

  (** ** One stage *)
  Lemma stage_eq key l m o : Forall good l -> StronglySorted (fun o o' => at_key key o < at_key key o') l -> In o l ->
    get (exec_all m l) (row V o) (col V o) =
      rhs V o (fun a b => if key a b <? at_key key o then get (exec_all m l) a b else get m a b).
  Proof.
    intros G S Ho. rewrite (exec_sorted cell n Inj key l m G S o Ho).
    pose proof (proj1 (Forall_forall _ _) G o Ho) as (_ & _ & P). apply P. intros a b Ha Hb.
    destruct (key a b <? at_key key o); [|now rewrite andb_false_r]. rewrite andb_true_r. destruct (written l a b) eqn:W; [reflexivity|].
    symmetry. now apply (get_unwritten cell n Inj).
  Qed.
  Ltac view_lt := match goal with |- context [if ?a <? ?b then _ else _] =>
      let H := fresh in assert (H : a < b) by (apply lex_lt; lia); apply Nat.ltb_lt in H; rewrite H; clear H end.
  Ltac view_ge := match goal with |- context [if ?a <? ?b then _ else _] =>
      let H := fresh in assert (H : ~ a < b) by (rewrite lex_lt by lia; lia); apply Nat.ltb_nlt in H; rewrite H; clear H end.

  (** *** The inverse of the lower triangle *)
  Definition key_col (r c : nat) : nat := c * n + r.
  Definition key_row (r c : nat) : nat := r * n + c.
  Lemma l_good : Forall good (invert_l V v0 v1 mul sub div n).
  Proof.
    apply Forall_forall. intros o H. unfold invert_l in H. apply in_flat_map in H as (i & Hi & H). apply in_seq in Hi. destruct H as [<-|H].
    - split; [cbn; lia|]. split; [cbn; lia|]. cbn [rhs]. intros g g' E. now rewrite E by lia.
    - apply in_map_iff in H as (j & <- & Hj). apply in_seq in Hj. split; [cbn; lia|]. split; [cbn; lia|]. cbn [rhs]. intros g g' E.
      rewrite !diff_sum. rewrite (sum_ext _ (fun k => mul (g' j k) (g' k i))); [now rewrite E by lia|]. intros k H1 H2. now rewrite !E by lia.
  Qed.
  Lemma l_sorted : StronglySorted (fun o o' => at_key key_col o < at_key key_col o') (invert_l V v0 v1 mul sub div n).
  Proof.
    apply sorted_flat_map_seq.
    - intros i _ Hi. constructor.
      + apply sorted_map_seq. intros j j' H1 H2 H3. unfold at_key, key_col. cbn [row col]. lia.
      + apply Forall_forall. intros o H. apply in_map_iff in H as (j & <- & Hj). apply in_seq in Hj. unfold at_key, key_col. cbn [row col]. lia.
    - intros i i' x y _ H1 H2 Hx Hy.
      assert (Cx : col V x = i /\ row V x < n).
      { destruct Hx as [<-|Hx]; [cbn; lia|]. apply in_map_iff in Hx as (j & <- & Hj). apply in_seq in Hj. cbn. lia. }
      assert (Cy : col V y = i' /\ row V y < n).
      { destruct Hy as [<-|Hy]; [cbn; lia|]. apply in_map_iff in Hy as (j & <- & Hj). apply in_seq in Hj. cbn. lia. }
      unfold at_key, key_col. destruct Cx as [-> Cx], Cy as [-> Cy]. apply lex_lt; lia.
  Qed.
  Lemma l_diag m i : i < n -> get (exec_all m (invert_l V v0 v1 mul sub div n)) i i = div v1 (get m i i).
  Proof.
    intro Hi. set (o := Op V i i (fun g => div v1 (g i i))).
    assert (Ho : In o (invert_l V v0 v1 mul sub div n)) by (apply in_flat_map; exists i; split; [apply in_seq; lia|now left]).
    pose proof (stage_eq key_col _ m o l_good l_sorted Ho) as E. cbn [row col rhs o] in E. rewrite E. unfold at_key, key_col. cbn [row col].
    now rewrite Nat.ltb_irrefl.
  Qed.
  Lemma l_below m i j : i < j -> j < n -> let m' := exec_all m (invert_l V v0 v1 mul sub div n) in
    get m' j i = div (opp (sum i j (fun k => mul (get m j k) (get m' k i)))) (get m j j).
  Proof.
    intros Hi Hj m'. set (o := Op V j i (fun g => div (diff i j (fun k => mul (g j k) (g k i))) (g j j))).
    assert (Ho : In o (invert_l V v0 v1 mul sub div n)).
    { apply in_flat_map. exists i. split; [apply in_seq; lia|]. right. apply in_map_iff. exists j. split; [reflexivity|apply in_seq; lia]. }
    pose proof (stage_eq key_col _ m o l_good l_sorted Ho) as E. cbn [row col rhs o] in E. fold m' in E. rewrite E, diff_sum. clear E.
    unfold at_key, key_col. cbn [row col o]. f_equal.
    - f_equal. apply sum_ext. intros k H1 H2. view_ge. f_equal. now view_lt.
    - now view_ge.
  Qed.
  Lemma l_above m i j : i < j -> j < n -> get (exec_all m (invert_l V v0 v1 mul sub div n)) i j = get m i j.
  Proof.
    intros Hi Hj. apply (get_unwritten cell n Inj); [exact l_good|lia|lia|]. apply Bool.not_true_iff_false. intro W.
    apply written_iff in W as (o & Ho & R & C). apply in_flat_map in Ho as (c & Hc & Ho). apply in_seq in Hc. destruct Ho as [<-|Ho].
    - cbn [row col] in *. lia.
    - apply in_map_iff in Ho as (r & <- & Hr). apply in_seq in Hr. cbn [row col] in *. lia.
  Qed.
  Lemma l_inverse m : (forall i, i < n -> get m i i <> v0) ->
    meq (mm (lower (get m)) (lower (get (exec_all m (invert_l V v0 v1 mul sub div n))))) one.
  Proof.
    intros P r c Hr Hc. set (m' := exec_all m (invert_l V v0 v1 mul sub div n)). unfold mm, lower, one.
    destruct (Nat.lt_trichotomy r c) as [H|[->|H]].
    - rewrite (vsum_ext _ (fun _ => v0)), vsum_zero; [destruct (Nat.eqb_spec r c); [lia|reflexivity]|].
      intros k _. destruct (Nat.leb_spec k r), (Nat.leb_spec c k); try lia; ring.
    - rewrite Nat.eqb_refl. transitivity (vsum (fun k => if k =? c then v1 else v0) n); [|now apply vsum_single]. apply vsum_ext. intros k _.
      destruct (Nat.leb_spec k c), (Nat.leb_spec c k), (Nat.eqb_spec k c); try lia; try ring. subst k. unfold m'. rewrite l_diag by lia. now apply div_mul, P.
    - destruct (Nat.eqb_spec r c); [lia|].
      rewrite (vsum_ext _ (fun k => add (if (c <=? k) && (k <? r) then mul (get m r k) (get m' k c) else v0) (if k =? r then mul (get m r r) (get m' r c) else v0))).
      + rewrite vsum_add, <- sum_mask, vsum_single by lia. unfold m' at 2. rewrite l_below by lia. fold m'. rewrite div_mul by now apply P. ring.
      + intros k _. destruct (Nat.leb_spec k r), (Nat.leb_spec c k), (Nat.ltb_spec k r), (Nat.eqb_spec k r); cbn [andb]; subst; try lia; ring.
  Qed.

  (** *** The inverse of the upper triangle *)
  Lemma u_good : Forall good (invert_u V v0 v1 add mul opp n).
  Proof.
    apply Forall_forall. intros o H. apply in_flat_map in H as (i & Hi & H). apply in_seq in Hi.
    apply in_map_iff in H as (j & <- & Hj). apply in_seq in Hj. split; [cbn; lia|]. split; [cbn; lia|]. cbn [rhs]. intros g g' E.
    f_equal. apply sum_ext. intros k H1 H2. rewrite E by lia. destruct (i =? k); [reflexivity|]. now rewrite E by lia.
  Qed.
  Lemma u_sorted : StronglySorted (fun o o' => at_key key_row o < at_key key_row o') (invert_u V v0 v1 add mul opp n).
  Proof.
    apply sorted_flat_map_seq.
    - intros i _ Hi. apply sorted_map_seq. intros j j' H1 H2 H3. unfold at_key, key_row. cbn [row col]. lia.
    - intros i i' x y _ H1 H2 Hx Hy. apply in_map_iff in Hx as (j & <- & Hj), Hy as (j' & <- & Hj'). apply in_seq in Hj, Hj'.
      unfold at_key, key_row. cbn [row col]. apply lex_lt; lia.
  Qed.
  Lemma u_above m i j : i < j -> j < n -> let m' := exec_all m (invert_u V v0 v1 add mul opp n) in
    get m' i j = opp (sum i j (fun k => mul (get m k j) (if i =? k then v1 else get m' i k))).
  Proof.
    intros Hi Hj m'. set (o := Op V i j (fun g => opp (sum i j (fun k => mul (g k j) (if i =? k then v1 else g i k))))).
    assert (Ho : In o (invert_u V v0 v1 add mul opp n)).
    { apply in_flat_map. exists i. split; [apply in_seq; lia|]. apply in_map_iff. exists j. split; [reflexivity|apply in_seq; lia]. }
    pose proof (stage_eq key_row _ m o u_good u_sorted Ho) as E. cbn [row col rhs o] in E. fold m' in E. rewrite E. clear E.
    unfold at_key, key_row. cbn [row col o]. f_equal. apply sum_ext. intros k H1 H2. view_ge. f_equal.
    destruct (i =? k) eqn:Ek; [reflexivity|]. apply Nat.eqb_neq in Ek. now view_lt.
  Qed.
  Lemma u_below m i j : i <= j -> j < n -> get (exec_all m (invert_u V v0 v1 add mul opp n)) j i = get m j i.
  Proof.
    intros Hi Hj. apply (get_unwritten cell n Inj); [exact u_good|lia|lia|]. apply Bool.not_true_iff_false. intro W.
    apply written_iff in W as (o & Ho & R & C). apply in_flat_map in Ho as (r & Hr & Ho). apply in_seq in Hr.
    apply in_map_iff in Ho as (c & <- & Hc). apply in_seq in Hc. cbn [row col] in *. lia.
  Qed.
  Lemma u_inverse m : meq (mm (upper (get (exec_all m (invert_u V v0 v1 add mul opp n)))) (upper (get m))) one.
  Proof.
    intros r c Hr Hc. set (m' := exec_all m (invert_u V v0 v1 add mul opp n)). unfold mm, upper, one.
    destruct (Nat.lt_trichotomy r c) as [H|[->|H]].
    - destruct (Nat.eqb_spec r c); [lia|].
      rewrite (vsum_ext _ (fun k => add (if (r <=? k) && (k <? c) then mul (get m k c) (if r =? k then v1 else get m' r k) else v0) (if k =? c then get m' r c else v0))).
      + rewrite vsum_add, <- sum_mask, vsum_single by lia. unfold m' at 2. rewrite u_above by lia. fold m'. ring.
      + intros k _. destruct (Nat.eqb_spec r k), (Nat.eqb_spec k c), (Nat.ltb_spec r k), (Nat.ltb_spec k c), (Nat.leb_spec r k); cbn [andb]; subst; try lia; ring.
    - rewrite Nat.eqb_refl. transitivity (vsum (fun k => if k =? c then v1 else v0) n); [|now apply vsum_single]. apply vsum_ext. intros k _.
      destruct (Nat.eqb_spec c k), (Nat.eqb_spec k c), (Nat.ltb_spec c k), (Nat.ltb_spec k c); subst; try lia; ring.
    - rewrite (vsum_ext _ (fun _ => v0)), vsum_zero; [destruct (Nat.eqb_spec r c); [lia|reflexivity]|].
      intros k _. destruct (Nat.eqb_spec r k), (Nat.eqb_spec k c), (Nat.ltb_spec r k), (Nat.ltb_spec k c); subst; try lia; ring.
  Qed.

  (** *** The product of the two inverses *)
  Lemma f_good : Forall good (final V v0 v1 add mul n).
  Proof.
    apply Forall_forall. intros o H. apply in_flat_map in H as (i & Hi & H). apply in_seq in Hi.
    apply in_map_iff in H as (j & <- & Hj). apply in_seq in Hj. split; [cbn; lia|]. split; [cbn; lia|]. cbn [rhs]. intros g g' E.
    apply sum_ext. intros k H1 H2. rewrite (E k i) by lia. destruct (j =? k); [reflexivity|]. now rewrite E by lia.
  Qed.
  Lemma f_sorted : StronglySorted (fun o o' => at_key key_col o < at_key key_col o') (final V v0 v1 add mul n).
  Proof.
    apply sorted_flat_map_seq.
    - intros i _ Hi. apply sorted_map_seq. intros j j' H1 H2 H3. unfold at_key, key_col. cbn [row col]. lia.
    - intros i i' x y _ H1 H2 Hx Hy. apply in_map_iff in Hx as (j & <- & Hj), Hy as (j' & <- & Hj'). apply in_seq in Hj, Hj'.
      unfold at_key, key_col. cbn [row col]. apply lex_lt; lia.
  Qed.
  Lemma f_product m : meq (get (exec_all m (final V v0 v1 add mul n))) (mm (upper (get m)) (lower (get m))).
  Proof.
    intros j i Hj Hi. set (o := Op V j i (fun g => sum (Nat.max i j) n (fun k => mul (if j =? k then v1 else g j k) (g k i)))).
    assert (Ho : In o (final V v0 v1 add mul n)).
    { apply in_flat_map. exists i. split; [apply in_seq; lia|]. apply in_map_iff. exists j. split; [reflexivity|apply in_seq; lia]. }
    pose proof (stage_eq key_col _ m o f_good f_sorted Ho) as E. cbn [row col rhs o] in E. rewrite E. clear E.
    unfold at_key, key_col. cbn [row col o]. rewrite sum_mask by lia. unfold mm, upper, lower. apply vsum_ext. intros k Hk.
    destruct (Nat.leb_spec (Nat.max i j) k) as [M|M]; cbn [andb].
    - destruct (Nat.ltb_spec k n); [|lia]. destruct (Nat.leb_spec i k); [|lia]. destruct (Nat.eqb_spec j k) as [->|Nk].
      + f_equal. now view_ge.
      + destruct (Nat.ltb_spec j k); [|lia]. f_equal; now view_ge.
    - destruct (Nat.leb_spec i k), (Nat.eqb_spec j k), (Nat.ltb_spec j k); subst; try lia; ring.
  Qed.

  (** *** The decomposition *)
  Definition key_lu (r c : nat) : nat := (Nat.min r c * 2 + Nat.b2n (r <? c)) * n + Nat.max r c.
  Lemma key_lu_low r c : c <= r -> key_lu r c = (c * 2) * n + r.
  Proof. intro H. unfold key_lu. destruct (Nat.ltb_spec r c); [lia|]. rewrite Nat.min_r, Nat.max_l by lia. cbn [Nat.b2n]. f_equal. f_equal. lia. Qed.
  Lemma key_lu_up r c : r < c -> key_lu r c = (r * 2 + 1) * n + c.
  Proof. intro H. unfold key_lu. destruct (Nat.ltb_spec r c); [|lia]. rewrite Nat.min_l, Nat.max_r by lia. reflexivity. Qed.
  Notation lu := (lu_ops V v0 add mul sub div n).
  Lemma lu_cases o : In o lu ->
    (exists i, 1 <= i < n /\ o = Op V 0 i (fun g => div (g 0 i) (g 0 0))) \/
    (exists i j, 1 <= i /\ i <= j /\ j < n /\ o = Op V j i (fun g => sub (g j i) (sum 0 i (fun k => mul (g j k) (g k i))))) \/
    (exists i j, 1 <= i /\ i < j /\ j < n /\ o = Op V i j (fun g => div (sub (g i j) (sum 0 i (fun k => mul (g i k) (g k j)))) (g i i))).
  Proof.
    intro H. unfold lu_ops in H. apply in_app_iff in H as [H|H].
    - left. apply in_map_iff in H as (i & <- & Hi). apply in_seq in Hi. exists i. split; [lia|reflexivity].
    - right. apply in_flat_map in H as (i & Hi & H). apply in_seq in Hi. apply in_app_iff in H as [H|H].
      + left. apply in_map_iff in H as (j & <- & Hj). apply in_seq in Hj. exists i, j. repeat split; lia.
      + right. destruct (i =? n - 1); [destruct H|]. apply in_map_iff in H as (j & <- & Hj). apply in_seq in Hj. exists i, j. repeat split; lia.
  Qed.
  Lemma lu_good : Forall good lu.
  Proof.
    apply Forall_forall. intros o H. apply lu_cases in H as [(i & Hi & ->)|[(i & j & H1 & H2 & H3 & ->)|(i & j & H1 & H2 & H3 & ->)]];
      (split; [cbn; lia|]; split; [cbn; lia|]; cbn [rhs]; intros g g' E).
    - now rewrite !E by lia.
    - rewrite E by lia. f_equal. apply sum_ext. intros k _ Hk. now rewrite !E by lia.
    - rewrite (E i i), (E i j) by lia. f_equal. f_equal. apply sum_ext. intros k _ Hk. now rewrite !E by lia.
  Qed.
  Lemma lu_sorted : StronglySorted (fun o o' => at_key key_lu o < at_key key_lu o') lu.
  Proof.
    unfold lu_ops. apply sorted_app.
    - apply sorted_map_seq. intros i j H1 H2 H3. unfold at_key. cbn [row col]. rewrite !key_lu_up by lia. lia.
    - apply sorted_flat_map_seq.
      + intros i H1 H2. apply sorted_app.
        * apply sorted_map_seq. intros j j' H3 H4 H5. unfold at_key. cbn [row col]. rewrite !key_lu_low by lia. lia.
        * destruct (i =? n - 1); [constructor|]. apply sorted_map_seq. intros j j' H3 H4 H5. unfold at_key. cbn [row col]. rewrite !key_lu_up by lia. lia.
        * intros x y Hx Hy. destruct (i =? n - 1); [destruct Hy|]. apply in_map_iff in Hx as (j & <- & Hj), Hy as (j' & <- & Hj'). apply in_seq in Hj, Hj'.
          unfold at_key. cbn [row col]. rewrite key_lu_low, key_lu_up by lia. apply lex_lt; lia.
      + intros i i' x y H1 H2 H3 Hx Hy.
        assert (G : forall i x, 1 <= i -> i < n -> In x (map (fun j => Op V j i (fun g => sub (g j i) (sum 0 i (fun k => mul (g j k) (g k i))))) (seq i (n - i)) ++
          (if i =? n - 1 then [] else map (fun j => Op V i j (fun g => div (sub (g i j) (sum 0 i (fun k => mul (g i k) (g k j)))) (g i i))) (seq (S i) (n - S i)))) ->
          exists b j, b <= 1 /\ j < n /\ at_key key_lu x = (i * 2 + b) * n + j).
        { clear. intros i x H1 H2 H. apply in_app_iff in H as [H|H].
          - apply in_map_iff in H as (j & <- & Hj). apply in_seq in Hj. exists 0, j. unfold at_key. cbn [row col]. rewrite key_lu_low by lia. repeat split; [lia|lia|]. f_equal. f_equal. lia.
          - destruct (i =? n - 1); [destruct H|]. apply in_map_iff in H as (j & <- & Hj). apply in_seq in Hj. exists 1, j. unfold at_key. cbn [row col]. rewrite key_lu_up by lia. repeat split; lia. }
        apply G in Hx as (b & j & Hb & Hj & ->); [|lia|lia]. apply G in Hy as (b' & j' & Hb' & Hj' & ->); [|lia|lia]. apply lex_lt; lia.
    - intros x y Hx Hy. apply in_map_iff in Hx as (i & <- & Hi). apply in_seq in Hi. unfold at_key at 1. cbn [row col]. rewrite key_lu_up by lia.
      assert (Hy' : exists a b, 2 <= a /\ b < n /\ at_key key_lu y = a * n + b).
      { apply in_flat_map in Hy as (i' & Hi' & Hy). apply in_seq in Hi'. apply in_app_iff in Hy as [Hy|Hy].
        - apply in_map_iff in Hy as (j & <- & Hj). apply in_seq in Hj. exists (i' * 2), j. unfold at_key. cbn [row col]. rewrite key_lu_low by lia. repeat split; lia.
        - destruct (i' =? n - 1); [destruct Hy|]. apply in_map_iff in Hy as (j & <- & Hj). apply in_seq in Hj. exists (i' * 2 + 1), j. unfold at_key. cbn [row col].
          rewrite key_lu_up by lia. repeat split; lia. }
      destruct Hy' as (a & b & Ha & Hb & ->). apply lex_lt; lia.
  Qed.
  Lemma lu_low m i j : i <= j -> j < n -> let D := get (exec_all m lu) in
    D j i = sub (get m j i) (sum 0 i (fun k => mul (D j k) (D k i))).
  Proof.
    intros Hi Hj D. destruct (Nat.eq_dec i 0) as [->|N].
    - unfold Invert.sum. cbn [seq fold_left Nat.sub]. transitivity (get m j 0); [|ring]. apply (get_unwritten cell n Inj); [exact lu_good|lia|lia|].
      apply Bool.not_true_iff_false. intro W. apply written_iff in W as (o & Ho & R & C).
      apply lu_cases in Ho as [(i & H & ->)|[(i & j' & H1 & H2 & H3 & ->)|(i & j' & H1 & H2 & H3 & ->)]]; cbn [row col] in *; lia.
    - set (o := Op V j i (fun g => sub (g j i) (sum 0 i (fun k => mul (g j k) (g k i))))).
      assert (Ho : In o lu).
      { apply in_app_iff. right. apply in_flat_map. exists i. split; [apply in_seq; lia|]. apply in_app_iff. left. apply in_map_iff. exists j. split; [reflexivity|apply in_seq; lia]. }
      pose proof (stage_eq key_lu _ m o lu_good lu_sorted Ho) as E. cbn [row col rhs o] in E. fold D in E. rewrite E. clear E.
      unfold at_key. cbn [row col o]. rewrite Nat.ltb_irrefl. f_equal. apply sum_ext. intros k _ Hk.
      rewrite (key_lu_low j i), (key_lu_low j k), (key_lu_up k i) by lia. view_lt. f_equal. now view_lt.
  Qed.
  Lemma lu_up m i j : i < j -> j < n -> let D := get (exec_all m lu) in
    D i j = div (sub (get m i j) (sum 0 i (fun k => mul (D i k) (D k j)))) (D i i).
  Proof.
    intros Hi Hj D. destruct (Nat.eq_dec i 0) as [->|N].
    - set (o := Op V 0 j (fun g => div (g 0 j) (g 0 0))).
      assert (Ho : In o lu) by (apply in_app_iff; left; apply in_map_iff; exists j; split; [reflexivity|apply in_seq; lia]).
      pose proof (stage_eq key_lu _ m o lu_good lu_sorted Ho) as E. cbn [row col rhs o] in E. fold D in E. rewrite E. clear E.
      unfold at_key. cbn [row col o]. rewrite Nat.ltb_irrefl. rewrite (key_lu_low 0 0), (key_lu_up 0 j) by lia.
      unfold Invert.sum. cbn [seq fold_left Nat.sub]. f_equal; [ring|]. now view_lt.
    - set (o := Op V i j (fun g => div (sub (g i j) (sum 0 i (fun k => mul (g i k) (g k j)))) (g i i))).
      assert (Ho : In o lu).
      { apply in_app_iff. right. apply in_flat_map. exists i. split; [apply in_seq; lia|]. apply in_app_iff. right. destruct (Nat.eqb_spec i (n - 1)); [lia|].
        apply in_map_iff. exists j. split; [reflexivity|apply in_seq; lia]. }
      pose proof (stage_eq key_lu _ m o lu_good lu_sorted Ho) as E. cbn [row col rhs o] in E. fold D in E. rewrite E. clear E.
      unfold at_key. cbn [row col o]. rewrite Nat.ltb_irrefl. f_equal.
      + f_equal. apply sum_ext. intros k _ Hk. rewrite (key_lu_up i j), (key_lu_low i k), (key_lu_up k j) by lia. view_lt. f_equal. now view_lt.
      + rewrite (key_lu_up i j), (key_lu_low i i) by lia. now view_lt.
  Qed.
  Lemma lu_entry m i j : let D := get (decompose V v0 add mul sub div cell n m) in
    i < n -> j < n -> (i < j -> D i i <> v0) -> mm (lower D) (upper D) i j = get m i j.
  Proof.
    intros D Hi Hj P. unfold mm, lower, upper. destruct (Nat.le_gt_cases j i) as [H|H].
    - rewrite (vsum_ext _ (fun k => add (if (0 <=? k) && (k <? j) then mul (D i k) (D k j) else v0) (if k =? j then D i j else v0))).
      + rewrite vsum_add, <- sum_mask, vsum_single by lia.
        assert (E : D i j = sub (get m i j) (sum 0 j (fun k => mul (D i k) (D k j)))) by (apply lu_low; lia). rewrite E. ring.
      + intros k _. destruct (Nat.leb_spec k i), (Nat.eqb_spec k j), (Nat.ltb_spec k j); cbn [andb Nat.leb]; subst; try lia; ring.
    - rewrite (vsum_ext _ (fun k => add (if (0 <=? k) && (k <? i) then mul (D i k) (D k j) else v0) (if k =? i then mul (D i i) (D i j) else v0))).
      + rewrite vsum_add, <- sum_mask, vsum_single by lia.
        assert (E : D i j = div (sub (get m i j) (sum 0 i (fun k => mul (D i k) (D k j)))) (D i i)) by (apply lu_up; lia).
        rewrite E. rewrite div_mul by now apply P. ring.
      + intros k _. destruct (Nat.leb_spec k i), (Nat.eqb_spec k i), (Nat.eqb_spec k j), (Nat.ltb_spec k i), (Nat.ltb_spec k j); cbn [andb Nat.leb]; subst; try lia; ring.
  Qed.
  Lemma lu_product m : let D := get (decompose V v0 add mul sub div cell n m) in
    (forall i, i < n -> D i i <> v0) -> meq (mm (lower D) (upper D)) (get m).
  Proof. intros D P i j Hi Hj. apply lu_entry; auto. Qed.

  Lemma vsum_tail f k m : k <= m -> (forall j, k <= j -> j < m -> f j = v0) -> vsum f m = vsum f k.
  Proof.
    induction m as [|m IH]; intros H Z; [now replace k with 0 by lia|]. destruct (Nat.eq_dec k (S m)) as [->|N]; [reflexivity|].
    cbn [Spec.vsum]. rewrite IH by (try lia; intros; apply Z; lia). rewrite Z by lia. ring.
  Qed.
  (** Regular leading blocks: no zero pivot. *)
  Definition regular (k : nat) (A : mat) : Prop :=
    forall x, (forall i, i < k -> vsum (fun j => mul (A i j) (x j)) k = v0) -> forall j, j < k -> x j = v0.
  Lemma pivots m : (forall k, k <= n -> regular k (get m)) -> forall i, i < n -> get (decompose V v0 add mul sub div cell n m) i i <> v0.
  Proof.
    intros Rg i. induction i as [i IH] using lt_wf_ind. intros Hi Z. set (m1 := decompose V v0 add mul sub div cell n m) in *.
    set (m2 := exec_all m1 (invert_u V v0 v1 add mul opp n)). set (W := upper (get m2)). set (U := upper (get m1)). set (L := lower (get m1)).
    assert (UW : meq (mm U W) one) by (apply (two_sided' U W _ (u_inverse m1) (u_inverse m2))).
    assert (H10 : v1 <> v0) by (destruct Vfield as [_ H _ _]; exact H).
    assert (Wi : W i i = v1) by (unfold W, upper; now rewrite Nat.eqb_refl).
    apply H10. rewrite <- Wi. apply (Rg (S i) Hi (fun j => W j i)); [|lia]. intros r Hr.
    transitivity (mm (mm L U) W r i).
    - unfold mm at 1. rewrite (vsum_tail _ (S i) n).
      + apply vsum_ext. intros j Hj. f_equal. symmetry. apply lu_entry; [lia|lia|]. intro H. apply IH; lia.
      + lia.
      + intros j H1 H2. unfold W, upper. destruct (Nat.eqb_spec j i), (Nat.ltb_spec j i); try lia; ring.
    - rewrite mm_assoc by lia. transitivity (mm L one r i); [apply mm_ext; [apply meq_refl|exact UW|lia|lia]|]. rewrite mm_one_r by lia.
      unfold L, lower. destruct (Nat.leb_spec i r); [|reflexivity]. replace r with i by lia. exact Z.
  Qed.

  Theorem invert_ok m : (forall i, i < n -> get (decompose V v0 add mul sub div cell n m) i i <> v0) ->
    let R := get (invert V v0 v1 add mul sub opp div cell n m) in meq (mm (get m) R) one /\ meq (mm R (get m)) one.
  Proof.
    intros P R. set (m1 := decompose V v0 add mul sub div cell n m) in *. set (m2 := exec_all m1 (invert_l V v0 v1 mul sub div n)).
    set (m3 := exec_all m2 (invert_u V v0 v1 add mul opp n)).
    assert (E1 : meq (get m) (mm (lower (get m1)) (upper (get m1)))) by (apply meq_sym, lu_product, P).
    assert (ER : meq R (mm (upper (get m3)) (lower (get m2)))).
    { apply meq_trans with (mm (upper (get m3)) (lower (get m3))); [apply f_product|]. apply mm_ext; [apply meq_refl|].
      intros r c Hr Hc. unfold lower. destruct (Nat.leb_spec c r); [|reflexivity]. apply u_below; lia. }
    assert (EU : meq (upper (get m1)) (upper (get m2))).
    { intros r c Hr Hc. unfold upper. destruct (Nat.eqb_spec r c); [reflexivity|]. destruct (Nat.ltb_spec r c); [|reflexivity]. symmetry. apply l_above; lia. }
    set (L := lower (get m1)) in *. set (U := upper (get m1)) in *. set (X := lower (get m2)) in *. set (W := upper (get m3)) in *.
    assert (LX : meq (mm L X) one) by now apply l_inverse.
    assert (P2 : forall i, i < n -> get m2 i i <> v0).
    { intros i Hi. unfold m2. rewrite l_diag by assumption. intro Z. pose proof (div_mul v1 (get m1 i i) (P i Hi)) as D. rewrite Z in D.
      destruct Vfield as [_ H10 _ _]. apply H10. rewrite <- D. ring. }
    assert (XL : meq (mm X L) one) by (apply (two_sided L X _ LX (l_inverse m2 P2))).
    assert (WU : meq (mm W U) one) by (apply meq_trans with (mm W (upper (get m2))); [apply mm_ext; [apply meq_refl|exact EU]|apply u_inverse]).
    assert (UW : meq (mm U W) one) by (apply (two_sided' U W _ WU (u_inverse m3))).
    assert (G : forall A B C D, meq (mm B C) one -> meq (mm A D) one -> meq (mm (mm A B) (mm C D)) one).
    { intros A B C D H K. apply meq_trans with (mm A (mm B (mm C D))); [apply mm_assoc|].
      apply meq_trans with (mm A D); [|exact K]. apply mm_ext; [apply meq_refl|]. apply meq_trans with (mm (mm B C) D); [apply meq_sym, mm_assoc|].
      apply meq_trans with (mm one D); [apply mm_ext; [exact H|apply meq_refl]|apply mm_one_l]. }
    split.
    - apply meq_trans with (mm (mm L U) (mm W X)); [now apply mm_ext|now apply G].
    - apply meq_trans with (mm (mm W X) (mm L U)); [now apply mm_ext|now apply G].
  Qed.
End Stages.
