(** Proofs about lists of events and their integral. *)
From Verif.Events Require Import Model Spec Momenta Ordering.
From Coq Require Import Permutation Lqa.
Local Open Scope nat_scope.

Section Lists.
  Variable A : Type.
  Notation entry := (entry A).
  Definition renumber (from : nat) (l : list entry) : list entry :=
    map (fun p => with_index A (from + fst p) (snd p)) (combine (seq 0 (List.length l)) l).

  Lemma renumber_app from l x : renumber from (l ++ [x]) = renumber from l ++ [with_index A (from + List.length l) x].
  Proof.
    unfold renumber. rewrite app_length. cbn [List.length]. rewrite seq_app. cbn [seq Nat.add].
    rewrite combine_app by (now rewrite seq_length). rewrite map_app. reflexivity.
  Qed.

  Lemma renumber_index from l : map (index A) (renumber from l) = seq from (List.length l).
  Proof.
    induction l as [|x l IH] using rev_ind; [reflexivity|]. rewrite renumber_app, map_app, IH, app_length. cbn [List.length map index with_index].
    now rewrite seq_app.
  Qed.

  Lemma renumber_body from l : map (body A) (renumber from l) = map (body A) l.
  Proof.
    induction l as [|x l IH] using rev_ind; [reflexivity|]. rewrite renumber_app, !map_app, IH. reflexivity.
  Qed.

  Lemma renumber_length from l : List.length (renumber from l) = List.length l.
  Proof. unfold renumber. rewrite map_length, combine_length, seq_length. lia. Qed.

  Lemma add_loop_ok blank l o : forall todo done, List.length o = done + todo ->
    add_loop A todo done (List.length l) (Some o) (l ++ renumber (List.length l) (firstn done o) ++ repeat blank todo) =
    Ok (l ++ renumber (List.length l) o).
  Proof.
    induction todo as [|n IH]; intros done H.
    - cbn [add_loop repeat]. rewrite app_nil_r, firstn_all2 by lia. reflexivity.
    - cbn [add_loop source]. destruct (nth_error o done) as [x|] eqn:E; [|apply nth_error_None in E; lia]. cbn [of_opt bind repeat].
      assert (Lf : List.length (renumber (List.length l) (firstn done o)) = done) by (rewrite renumber_length, firstn_length; lia).
      rewrite set_at_app_r. rewrite <- Lf at 1. rewrite set_at_app_at. cbn [option_map of_opt bind].
      specialize (IH (S done) ltac:(lia)). rewrite <- IH. f_equal. f_equal.
      assert (F : firstn (S done) o = firstn done o ++ [x]).
      { clear - E. revert done E. induction o as [|y o IH]; intros [|d] E; try discriminate; cbn in *; [congruence|]. now rewrite (IH d). }
      rewrite F, renumber_app, <- app_assoc. cbn [app]. rewrite firstn_length_le by lia. reflexivity.
  Qed.

  Lemma add_other blank l o : add_list A blank l (Some o) = Ok (l ++ renumber (List.length l) o).
  Proof. unfold add_list. cbn [source]. exact (add_loop_ok blank l o (List.length o) 0 eq_refl). Qed.

  Lemma add_loop_self : forall todo i s0 l, 0 < todo -> s0 + i + todo > List.length l -> add_loop A todo i s0 None l = UB.
  Proof.
    induction todo as [|n IH]; intros i s0 l H0 H; [lia|]. cbn [add_loop source].
    destruct (nth_error l i) as [x|]; [|reflexivity]. cbn [of_opt bind].
    destruct (Nat.lt_ge_cases (s0 + i) (List.length l)) as [Hl|Hl]; [|now rewrite set_at_None by assumption].
    destruct (set_at_Some (s0 + i) (with_index A (s0 + i) x) l Hl) as (l' & -> & L & _). cbn [of_opt bind]. apply IH; lia.
  Qed.

  Lemma add_self blank l : l <> [] -> add_list A blank l None = UB.
  Proof.
    intro N. assert (List.length l > 0) by (destruct l; [congruence|cbn; lia]). unfold add_list. cbn [source].
    apply add_loop_self; rewrite app_length, repeat_length; lia.
  Qed.

  (** What the operations should do to the contents. *)
  Definition removes (o : op A) : bool := match o with Erase _ _ _ | Filter _ _ => true | _ => false end.
  Definition content1 (bs : list A) (o : op A) : list A :=
    match o with
    | PushBack _ x => bs ++ [body A x]
    | Add _ _ (Some o) => bs ++ map (body A) o
    | Add _ _ None => bs
    | Resize _ b n => repeat b n
    | Clear _ => []
    | Erase _ a b => firstn a bs ++ skipn b bs
    | Filter _ f => filter (fun x => negb (f x)) bs
    | Transform _ f => map f bs
    end.
  Definition not_self (o : op A) : Prop := match o with Add _ _ None => False | _ => True end.

  Lemma run1_ok l o : not_self o -> exists l', run1 A l o = Ok l' /\ map (body A) l' = content1 (map (body A) l) o /\
    (removes o = false -> numbered l -> numbered l').
  Proof.
    intro NS. destruct o as [x|b [o|]|b n| |a b|f|f]; cbn [run1 content1 removes not_self] in *; try contradiction.
    - exists (push_back A l x). split; [reflexivity|]. unfold push_back, numbered. rewrite !map_app, app_length. cbn. split; [reflexivity|].
      intros _ H. rewrite H, seq_app. reflexivity.
    - rewrite add_other. exists (l ++ renumber (List.length l) o). split; [reflexivity|]. rewrite map_app, renumber_body. split; [reflexivity|].
      intros _ H. unfold numbered in *. rewrite map_app, app_length, renumber_length, H, renumber_index. now rewrite seq_app.
    - exists (resize A b n). split; [reflexivity|]. unfold resize, numbered. rewrite !map_map, map_length, seq_length. cbn [body index].
      split; [|intros _ _; now rewrite map_id]. induction n as [|n IH]; [reflexivity|]. rewrite seq_S, map_app, IH. cbn.
      clear. induction n; [reflexivity|]. cbn. now rewrite IHn.
    - exists []. repeat split.
    - exists (erase A l a b). split; [reflexivity|]. unfold erase. rewrite map_app, firstn_map, skipn_map. split; [reflexivity|discriminate].
    - exists (filter_list A f l). split; [reflexivity|]. split; [|discriminate]. unfold filter_list. clear. induction l as [|x l IH]; [reflexivity|].
      cbn. destruct (negb (f (body A x))); cbn; now rewrite IH.
    - exists (transform A f l). split; [reflexivity|]. unfold transform, numbered. rewrite !map_map, map_length. cbn [body index]. split; [reflexivity|].
      intros _ H. exact H.
  Qed.

  Lemma run_ok : forall ops l, Forall not_self ops -> exists l', run A ops l = Ok l' /\ map (body A) l' = fold_left content1 ops (map (body A) l) /\
    (Forall (fun o => removes o = false) ops -> numbered l -> numbered l').
  Proof.
    induction ops as [|o ops IH]; intros l N; [exists l; repeat split; trivial|].
    cbn [run fold_left]. destruct (run1_ok l o (Forall_inv N)) as (l1 & -> & B1 & N1). cbn [bind].
    destruct (IH l1 (Forall_inv_tail N)) as (l2 & R & B2 & N2). exists l2. split; [exact R|]. rewrite <- B1. split; [exact B2|].
    intros F H. apply N2; [exact (Forall_inv_tail F)|]. apply N1; [exact (Forall_inv F)|exact H].
  Qed.
End Lists.

(** ** The integral *)
Local Open Scope Q_scope.
Lemma truncate_int z w : w == inject_Z z -> truncate w = z.
Proof.
  unfold Qeq, truncate, inject_Z. cbn. rewrite Z.mul_1_r. intro H. rewrite H. apply Z.quot_mul. lia.
Qed.

Lemma truncate_nonneg w : 0 <= w -> inject_Z (truncate w) <= w /\ w < inject_Z (truncate w) + 1 /\ (0 <= truncate w)%Z.
Proof.
  destruct w as [n d]. unfold truncate, Qle, Qlt, inject_Z. cbn. intro H.
  assert (0 <= n)%Z by lia. rewrite Z.quot_div_nonneg by lia.
  pose proof (Z.div_mod n (Z.pos d) ltac:(lia)). pose proof (Z.mod_pos_bound n (Z.pos d) ltac:(lia)).
  pose proof (Z.div_pos n (Z.pos d) ltac:(lia) ltac:(lia)). rewrite !Z.mul_1_r. split; [nia|]. split; [nia|lia].
Qed.

Lemma Qsum_cons a l : Qsum (a :: l) = (a + Qsum l)%Q. Proof. reflexivity. Qed.

(** Whole weights. *)
Fixpoint partial_sums (acc : Z) (l : list Z) : list Z := match l with [] => [] | z :: r => (acc + z)%Z :: partial_sums (acc + z) r end.

Lemma integral_whole : forall zs acc, Forall (fun z => in_int z = true) (partial_sums acc zs) ->
  integral_from acc (map inject_Z zs) = Ok (acc + fold_right Z.add 0 zs)%Z.
Proof.
  induction zs as [|z zs IH]; intros acc H; cbn [map integral_from fold_right]; [now rewrite Z.add_0_r|].
  rewrite (truncate_int (acc + z)) by (now rewrite inject_Z_plus). cbn [partial_sums] in H.
  rewrite (Forall_inv H : in_int (acc + z) = true). rewrite IH by exact (Forall_inv_tail H). f_equal. lia.
Qed.

Lemma integral_nonneg : forall ws acc r, (0 <= acc)%Z -> Forall (fun w => 0 <= w) ws -> integral_from acc ws = Ok r ->
  inject_Z r <= inject_Z acc + Qsum ws /\ inject_Z acc + Qsum ws <= inject_Z r + inject_Z (Z.of_nat (List.length ws)) /\
  (ws <> [] -> inject_Z acc + Qsum ws < inject_Z r + inject_Z (Z.of_nat (List.length ws))).
Proof.
  induction ws as [|w ws IH]; intros acc r Ha H E.
  - cbn in E. injection E as ->. unfold Qsum. cbn [fold_right List.length Z.of_nat]. change (inject_Z 0) with 0. split; [lra|]. split; [lra|congruence].
  - cbn [integral_from] in E. destruct (in_int (truncate (inject_Z acc + w))); [|discriminate].
    pose proof (Forall_inv H : 0 <= w) as Hw.
    assert (Hacc : 0 <= inject_Z acc) by (change 0%Q with (inject_Z 0); rewrite <- Zle_Qle; exact Ha).
    destruct (truncate_nonneg (inject_Z acc + w) ltac:(lra)) as (T1 & T2 & T3).
    destruct (IH _ _ T3 (Forall_inv_tail H) E) as (I1 & I2 & _).
    assert (LL : inject_Z (Z.of_nat (List.length (w :: ws))) == inject_Z (Z.of_nat (List.length ws)) + 1).
    { change 1%Q with (inject_Z 1). rewrite <- inject_Z_plus. cbn [List.length]. rewrite Nat2Z.inj_succ. unfold Z.succ. reflexivity. }
    rewrite LL, Qsum_cons. split; [lra|]. split; [lra|intros _; lra].
Qed.

Lemma integral_fractions : forall ws, Forall (fun w => 0 <= w /\ w < 1) ws -> integral ws = Ok 0%Z.
Proof.
  unfold integral. induction ws as [|w ws IH]; intro H; [reflexivity|]. cbn [integral_from]. destruct (Forall_inv H) as [H1 H2].
  assert (T : truncate (inject_Z 0 + w) = 0%Z).
  { destruct (truncate_nonneg (inject_Z 0 + w)) as (T1 & T2 & T3).
    - change (inject_Z 0) with 0%Q. lra.
    - assert (inject_Z (truncate (inject_Z 0 + w)) < inject_Z 1) as L.
      { change (inject_Z 1) with 1%Q. change (inject_Z 0) with 0%Q in *. lra. }
      rewrite <- Zlt_Qlt in L. lia. }
  rewrite T. apply IH. exact (Forall_inv_tail H).
Qed.
