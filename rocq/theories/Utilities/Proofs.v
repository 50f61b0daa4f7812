From Verif.Common Require Import Prelude.
From Verif.Utilities Require Import Model Spec.
From Coq Require Import NArith.

(** * C01 split by delimiter set *)

Lemma mem_char_In c l : mem_char c l = true <-> In c l.
Proof.
  unfold mem_char. rewrite existsb_exists. split.
  - intros (x & Hx & E). apply Ascii.eqb_eq in E. now subst.
  - intro H. exists c. split; [assumption|apply Ascii.eqb_refl].
Qed.

Lemma mem_char_not c l : mem_char c l = false <-> ~ In c l.
Proof.
  destruct (mem_char c l) eqn:E; split; intro H; try easy.
  - apply mem_char_In in E. contradiction.
  - intro K. apply mem_char_In in K. congruence.
Qed.

Definition flush (tmp : str) : list str := match tmp with [] => [] | _ => [tmp] end.

Lemma concat_flush tmp : List.concat (flush tmp) = tmp.
Proof. destruct tmp; simpl; [reflexivity|now rewrite app_nil_r]. Qed.

Lemma split_loop_concat D tmp s :
  List.concat (split_delims_loop D true tmp s) = tmp ++ s.
Proof.
  revert tmp; induction s as [|c s IH]; intro tmp; simpl.
  - rewrite app_nil_r. apply (concat_flush tmp).
  - destruct (mem_char c D).
    + fold (flush tmp). rewrite concat_app, concat_flush. simpl. rewrite IH. reflexivity.
    + rewrite IH. rewrite <- app_assoc. reflexivity.
Qed.

Definition clean (D : list ascii) (t : str) := forall c, In c t -> ~ In c D.

Lemma clean_snoc D t c : clean D t -> ~ In c D -> clean D (t ++ [c]).
Proof. intros H Hc x Hx. apply in_app_or in Hx as [Hx|[<-|[]]]; auto. Qed.

Lemma clean_nil D : clean D [].
Proof. intros x []. Qed.

Lemma flush_run D tmp : clean D tmp -> Forall (fun t => is_delim_token D t \/ is_run D t) (flush tmp).
Proof.
  intro H. destruct tmp as [|c t]; simpl; constructor; auto.
  right. split; [discriminate|exact H].
Qed.

Lemma split_loop_shape D tmp s :
  clean D tmp -> Forall (fun t => is_delim_token D t \/ is_run D t) (split_delims_loop D true tmp s).
Proof.
  revert tmp; induction s as [|c s IH]; intros tmp H; simpl.
  - now apply (flush_run D tmp).
  - destruct (mem_char c D) eqn:E.
    + apply Forall_app; split; [now apply (flush_run D tmp)|].
      simpl. constructor.
      * left. exists c. split; [now apply mem_char_In|reflexivity].
      * apply IH, clean_nil.
    + apply IH, clean_snoc; [assumption|now apply mem_char_not].
Qed.

Lemma single_delim_not_run D c : In c D -> ~ is_run D [c].
Proof. intros H [_ K]. apply (K c); [now left|assumption]. Qed.

Lemma split_loop_noadj D tmp s :
  clean D tmp ->
  no_adjacent_runs D (split_delims_loop D true tmp s) /\
  (forall d, In d D -> no_adjacent_runs D ([d] :: split_delims_loop D true tmp s)).
Proof.
  revert tmp; induction s as [|c s IH]; intros tmp H; simpl.
  - assert (A : no_adjacent_runs D (flush tmp)) by (destruct tmp; constructor).
    split; [exact A|]. intros d Hd. destruct tmp; constructor; [|constructor].
    intros [K _]. now apply single_delim_not_run in K.
  - destruct (mem_char c D) eqn:E.
    + apply mem_char_In in E. fold (flush tmp). simpl.
      destruct (IH [] (clean_nil D)) as [_ B].
      specialize (B c E).
      assert (A : no_adjacent_runs D (flush tmp ++ [c] :: split_delims_loop D true [] s)).
      { destruct tmp; simpl; [exact B|]. constructor; [|exact B].
        intros [_ K]. now apply single_delim_not_run in K. }
      split; [exact A|]. intros d Hd.
      destruct tmp; simpl in *; constructor; try exact A; intros [K _]; now apply single_delim_not_run in K.
    + apply IH, clean_snoc; [assumption|now apply mem_char_not].
Qed.

Lemma split_delims_tokenisation D s : tokenisation D s (split_delims s D true).
Proof.
  unfold split_delims. repeat split.
  - apply split_loop_concat.
  - apply split_loop_shape, clean_nil.
  - apply split_loop_noadj, clean_nil.
Qed.

Lemma is_delim_tokenb_mem D c : is_delim_tokenb D [c] = mem_char c D.
Proof. reflexivity. Qed.

Lemma is_delim_tokenb_spec D t : is_delim_tokenb D t = true <-> is_delim_token D t.
Proof.
  unfold is_delim_token. destruct t as [|c [|d t]]; simpl; split; intro H; try discriminate.
  - destruct H as (x & _ & K). discriminate.
  - exists c. split; [now apply mem_char_In|reflexivity].
  - destruct H as (x & Hx & K). injection K as ->. now apply mem_char_In.
  - destruct H as (x & _ & K). discriminate.
Qed.

Lemma flush_filter D tmp : clean D tmp ->
  filter (fun t => negb (is_delim_tokenb D t)) (flush tmp) = flush tmp.
Proof.
  intro H. destruct tmp as [|c [|d t]]; simpl; try reflexivity.
  fold (mem_char c D). replace (mem_char c D) with false; [reflexivity|].
  symmetry. apply mem_char_not. apply H. now left.
Qed.

Lemma split_loop_nokeep D tmp s : clean D tmp ->
  split_delims_loop D false tmp s =
  filter (fun t => negb (is_delim_tokenb D t)) (split_delims_loop D true tmp s).
Proof.
  revert tmp; induction s as [|c s IH]; intros tmp H; simpl.
  - symmetry. now apply (flush_filter D tmp).
  - destruct (mem_char c D) eqn:E.
    + fold (flush tmp). rewrite filter_app, flush_filter by assumption. simpl. fold (mem_char c D). rewrite E. simpl.
      f_equal. apply IH, clean_nil.
    + apply IH, clean_snoc; [assumption|now apply mem_char_not].
Qed.

Lemma split_delims_nokeep D s :
  split_delims s D false = filter (fun t => negb (is_delim_tokenb D t)) (split_delims s D true).
Proof. apply split_loop_nokeep, clean_nil. Qed.

(** The specification determines the tokens, so it says everything about the result. *)
Lemma tokenisation_unique D : forall l1 l2 s,
  tokenisation D s l1 -> tokenisation D s l2 -> l1 = l2.
Proof.
  assert (hd_app : forall (a b x y : str), a ++ x = b ++ y ->
     exists z, (a = b ++ z /\ y = z ++ x) \/ (b = a ++ z /\ x = z ++ y)).
  { induction a as [|c a IH]; intros b x y E; simpl in E.
    - exists b. right. now split.
    - destruct b as [|d b]; simpl in E.
      + exists (c :: a). left. split; [reflexivity|now symmetry].
      + injection E as -> E. destruct (IH _ _ _ E) as [z [[-> ->]|[-> ->]]]; exists z; [left|right]; now split. }
  (* two first tokens of the same text agree *)
  assert (key : forall t u l1 l2 z,
     (is_delim_token D t \/ is_run D t) -> (is_delim_token D u \/ is_run D u) ->
     Forall (fun t => is_delim_token D t \/ is_run D t) l2 ->
     no_adjacent_runs D (u :: l2) -> t = u ++ z -> List.concat l2 = z ++ List.concat l1 -> z = []).
  { intros t u l1 l2 z Ht Hu Hl2 Hadj -> E. destruct z as [|c z]; [reflexivity|exfalso].
    destruct Ht as [(d & Hd & K)|[_ Ht]].
    - destruct u as [|x u]; simpl in K.
      + destruct Hu as [(d' & _ & K')|[K' _]]; congruence.
      + injection K as <- K. destruct u; discriminate.
    - assert (Hur : is_run D u).
      { destruct Hu as [(d & Hd & ->)|Hu]; [|exact Hu]. exfalso. apply (Ht d); [now left|assumption]. }
      assert (Hc : ~ In c D) by (apply Ht, in_or_app; right; now left).
      destruct l2 as [|v l2]; [discriminate|].
      inversion Hl2 as [|? ? Hv _]; subst.
      inversion Hadj as [| |? ? ? Hn _]; subst.
      destruct Hv as [(d & Hd & ->)|Hv].
      + simpl in E. injection E as -> _. contradiction.
      + now apply Hn. }
  induction l1 as [|t l1 IH]; intros l2 s (C1 & F1 & A1) (C2 & F2 & A2).
  - simpl in C1. subst s. destruct l2 as [|u l2]; [reflexivity|].
    inversion F2 as [|? ? Hu _]; subst. simpl in C2. apply app_eq_nil in C2 as [-> _].
    destruct Hu as [(d & _ & K)|[K _]]; congruence.
  - destruct l2 as [|u l2].
    + simpl in C2. rewrite <- C2 in C1. inversion F1 as [|? ? Hu _]; subst. simpl in C1. apply app_eq_nil in C1 as [-> _].
      destruct Hu as [(d & _ & K)|[K _]]; congruence.
    + inversion F1 as [|? ? Ht F1']; subst. inversion F2 as [|? ? Hu F2']; subst.
      simpl in C2.
      assert (t = u /\ List.concat l2 = List.concat l1) as [<- E].
      { destruct (hd_app _ _ _ _ C2) as [z [[K1 K2]|[K1 K2]]].
        - assert (z = []) as -> by exact (key u t l2 l1 z Hu Ht F1' A1 K1 K2).
          rewrite app_nil_r in K1. simpl in K2. now split.
        - assert (z = []) as -> by exact (key t u l1 l2 z Ht Hu F2' A2 K1 K2).
          rewrite app_nil_r in K1. simpl in K2. now split. }
      f_equal. apply (IH l2 (List.concat l1)).
      * split; [reflexivity|]. split; [assumption|]. inversion A1; subst; [constructor|assumption].
      * split; [assumption|]. split; [assumption|]. inversion A2; subst; [constructor|assumption].
Qed.

(** * C02 split by one character *)

Lemma is_blank_item_spec t : is_blank_item t = true <-> blank t.
Proof.
  unfold is_blank_item, blank. rewrite !orb_true_iff, !str_eqb_eq. simpl. tauto.
Qed.

Lemma getlines_no_delim d s : forall acc, ~ In d acc -> forall t, In t (getlines d acc s) -> ~ In d t.
Proof.
  induction s as [|c s IH]; intros acc Ha t Ht; simpl in Ht.
  - destruct acc; [destruct Ht|]. destruct Ht as [<-|[]]. assumption.
  - destruct (Ascii.eqb_spec c d) as [->|N].
    + destruct Ht as [<-|Ht]; [assumption|]. apply (IH [] (fun x => x) t Ht).
    + apply (IH (acc ++ [c])); [|assumption].
      intro K. apply in_app_or in K as [K|[K|[]]]; [contradiction|now subst].
Qed.

Lemma getlines_run d t s : ~ In d t -> forall acc, getlines d acc (t ++ s) = getlines d (acc ++ t) s.
Proof.
  induction t as [|c t IH]; intros Ht acc; simpl.
  - now rewrite app_nil_r.
  - destruct (Ascii.eqb_spec c d) as [->|N]; [exfalso; apply Ht; now left|].
    rewrite IH by (intro K; apply Ht; now right). rewrite <- app_assoc. reflexivity.
Qed.

Lemma getlines_join d toks :
  Forall (fun t => ~ In d t) toks -> (forall t, last toks ["x"%char] = t -> t <> []) ->
  getlines d [] (join d toks) = toks.
Proof.
  induction toks as [|t toks IH]; intros F L; [reflexivity|].
  inversion F as [|? ? Ht F']; subst.
  destruct toks as [|u toks].
  - simpl. rewrite <- (app_nil_r t) at 1. rewrite getlines_run by assumption. simpl.
    destruct t; [exfalso; now apply (L [])|reflexivity].
  - change (join d (t :: u :: toks)) with (t ++ d :: join d (u :: toks)).
    rewrite getlines_run by assumption. simpl app.
    cbn [getlines]. rewrite Ascii.eqb_refl. f_equal. apply IH; assumption.
Qed.

Lemma filter_all {A} (f : A -> bool) l : Forall (fun x => f x = true) l -> filter f l = l.
Proof. induction 1 as [|x l H _ IH]; simpl; [reflexivity|]. now rewrite H, IH. Qed.

Lemma last_cons_indep {A} (l : list A) (x d1 d2 : A) : last (x :: l) d1 = last (x :: l) d2.
Proof. revert x; induction l as [|y l IH]; intro x; [reflexivity|]. apply (IH y). Qed.

Lemma split_join d toks ig :
  Forall (fun t => ~ In d t /\ ~ blank t) toks -> split (join d toks) d ig = toks.
Proof.
  intro F. unfold split. rewrite getlines_join.
  - apply filter_all. eapply Forall_impl; [|exact F]. intros t [_ Hb].
    destruct ig; [|reflexivity]. simpl. apply negb_true_iff.
    destruct (is_blank_item t) eqn:E; [|reflexivity]. apply is_blank_item_spec in E. contradiction.
  - eapply Forall_impl; [|exact F]. now intros t [].
  - intros t <- K.
    assert (G : forall l, Forall (fun t => ~ In d t /\ ~ blank t) l -> last l ["x"%char] <> []).
    { clear. induction l as [|x l IH]; intros F; [discriminate|]. inversion F as [|? ? [_ Hb] F']; subst.
      destruct l; [|now apply IH]. simpl. intros ->. apply Hb. now left. }
    now apply (G toks).
Qed.

(** Without suppression nothing is lost: the text is the join of the items, up to one final delimiter. *)
Lemma getlines_acc_nonempty d s : forall acc, acc <> [] -> getlines d acc s <> [].
Proof.
  induction s as [|c s IH]; intros acc H; simpl.
  - destruct acc; [contradiction|discriminate].
  - destruct (Ascii.eqb c d); [discriminate|]. apply IH. destruct acc; discriminate.
Qed.

Lemma join_cons d t l : l <> [] -> join d (t :: l) = t ++ d :: join d l.
Proof. destruct l; [contradiction|reflexivity]. Qed.

Lemma getlines_lossless d s : forall acc,
  acc ++ s = join d (getlines d acc s) \/ acc ++ s = join d (getlines d acc s) ++ [d].
Proof.
  induction s as [|c s IH]; intro acc; simpl.
  - left. rewrite app_nil_r. destruct acc; reflexivity.
  - destruct (Ascii.eqb_spec c d) as [->|N].
    + destruct (getlines d [] s) as [|u l] eqn:E.
      * right. specialize (IH []). rewrite E in IH. simpl in IH. simpl.
        destruct IH as [->|K].
        -- reflexivity.
        -- subst s. simpl in E. rewrite Ascii.eqb_refl in E. discriminate.
      * rewrite join_cons by discriminate. specialize (IH []). rewrite E in IH. simpl app in IH.
        destruct IH as [K|K]; [left|right]; rewrite K at 1; [reflexivity|].
        rewrite <- app_assoc. reflexivity.
    + specialize (IH (acc ++ [c])). rewrite <- app_assoc in IH. exact IH.
Qed.

Lemma split_false_lossless d s :
  s = join d (split s d false) \/ s = join d (split s d false) ++ [d].
Proof.
  unfold split. rewrite filter_all by (apply Forall_forall; reflexivity).
  exact (getlines_lossless d s []).
Qed.

Lemma split_tokens d s ig t : In t (split s d ig) -> ~ In d t /\ (ig = true -> ~ blank t).
Proof.
  unfold split. intro H. apply filter_In in H as [H K]. split.
  - apply (getlines_no_delim d s [] (fun x => x) t H).
  - intros -> B. apply is_blank_item_spec in B. rewrite B in K. discriminate.
Qed.

Lemma split_true_filters d s :
  split s d true = filter (fun t => negb (is_blank_item t)) (split s d false).
Proof.
  unfold split. simpl. rewrite (filter_all (fun _ => true)) by (apply Forall_forall; reflexivity). reflexivity.
Qed.

(** * swapChars *)

Lemma swapChars_involutive s a b : swapChars (swapChars s a b) a b = s.
Proof.
  unfold swapChars. rewrite map_map. rewrite <- map_id. apply map_ext. intro c.
  destruct (Ascii.eqb_spec c a) as [->|Na].
  - destruct (Ascii.eqb_spec b a) as [->|Nb]; [reflexivity|]. now rewrite Ascii.eqb_refl.
  - destruct (Ascii.eqb_spec c b) as [->|Nb].
    + now rewrite Ascii.eqb_refl.
    + destruct (Ascii.eqb_spec c a); [contradiction|]. destruct (Ascii.eqb_spec c b); [contradiction|reflexivity].
Qed.

(** * find *)

Lemma prefixb_spec p s : prefixb p s = true <-> exists q, s = p ++ q.
Proof.
  revert s; induction p as [|c p IH]; intro s; simpl.
  - split; [now exists s|reflexivity].
  - destruct s as [|d s]; split; intro H; try discriminate.
    + destruct H as [q K]; discriminate.
    + apply andb_true_iff in H as [H1 H2]. apply Ascii.eqb_eq in H1. apply IH in H2 as [q ->]. subst. now exists q.
    + destruct H as [q K]. injection K as -> ->. rewrite Ascii.eqb_refl. simpl. apply IH. now exists q.
Qed.

Lemma prefixb_false p s : prefixb p s = false <-> forall q, s <> p ++ q.
Proof.
  split.
  - intros H q E. assert (prefixb p s = true) by (apply prefixb_spec; now exists q). congruence.
  - intro H. destruct (prefixb p s) eqn:E; [|reflexivity]. apply prefixb_spec in E as [q E]. now apply H in E.
Qed.

Lemma find0_Some p s n : find0 p s = Some n ->
  n <= List.length s /\ (exists q, skipn n s = p ++ q) /\ (forall m, m < n -> forall q, skipn m s <> p ++ q).
Proof.
  revert n; induction s as [|c s IH]; intros n H; cbn [find0] in H.
  - destruct (prefixb p []) eqn:E; [|discriminate]. injection H as <-.
    apply prefixb_spec in E as [q E]. repeat split; [lia|now exists q|intros m Hm; lia].
  - destruct (prefixb p (c :: s)) eqn:E.
    + injection H as <-. apply prefixb_spec in E as [q E]. repeat split; [lia|now exists q|intros m Hm; lia].
    + destruct (find0 p s) as [m|] eqn:F; [|discriminate]. injection H as <-.
      destruct (IH m eq_refl) as (H1 & H2 & H3). repeat split; [simpl; lia|exact H2|].
      intros k Hk q. destruct k as [|k]; simpl.
      * now apply prefixb_false.
      * apply H3. lia.
Qed.

Lemma find0_None p s : find0 p s = None -> forall m q, skipn m s <> p ++ q.
Proof.
  induction s as [|c s IH]; cbn [find0]; intros H m q.
  - destruct (prefixb p []) eqn:E; [discriminate|]. rewrite skipn_nil. now apply prefixb_false.
  - destruct (prefixb p (c :: s)) eqn:E; [discriminate|].
    destruct (find0 p s) eqn:F; [discriminate|].
    destruct m as [|m]; simpl; [now apply prefixb_false|now apply IH].
Qed.

(** [find_from] seen on an already processed prefix [pre]. *)
Lemma find_from_split p pre s : find_from p (pre ++ s) (List.length pre) =
  option_map (Nat.add (List.length pre)) (find0 p s).
Proof.
  unfold find_from. rewrite app_length. destruct (Nat.ltb_spec (List.length pre + List.length s) (List.length pre)); [lia|].
  rewrite skipn_app, Nat.sub_diag, skipn_all. reflexivity.
Qed.

(** * C03 replaceAll *)

(** Processing the rest of the text: a match at distance n. *)
Lemma substituted_skip old new n : forall s r,
  (forall m, m < n -> forall q, skipn m s <> old ++ q) -> n <= List.length s ->
  substituted old new (skipn n s) r -> substituted old new s (firstn n s ++ r).
Proof.
  induction n as [|n IH]; intros s r H L K; [exact K|].
  destruct s as [|c s]; [simpl in L; lia|]. simpl. constructor.
  - intros q. apply (H 0); lia.
  - apply IH; [|simpl in L; lia|exact K]. intros m Hm q. apply (H (S m)). lia.
Qed.

Lemma substituted_none old new s : (forall m q, skipn m s <> old ++ q) -> substituted old new s s.
Proof.
  induction s as [|c s IH]; intro H; constructor; [intro q; apply (H 0)|].
  apply IH. intros m q. apply (H (S m)).
Qed.

(** The tail of the replacement that the search re-reads contains no start of a new match. *)
Definition no_restart (old new : str) : Prop :=
  forall c o, old = c :: o -> ~ In c (skipn (List.length old) new).

Lemma find0_skip_free p c o t s : p = c :: o -> ~ In c t -> find0 p (t ++ s) = option_map (Nat.add (List.length t)) (find0 p s).
Proof.
  intros -> H. induction t as [|d t IH].
  - simpl app. simpl List.length. destruct (find0 (c :: o) s); reflexivity.
  - cbn [find0 app]. assert (prefixb (c :: o) (d :: t ++ s) = false) as ->.
    { simpl. destruct (Ascii.eqb_spec c d) as [->|]; [exfalso; apply H; now left|reflexivity]. }
    rewrite IH by (intro K; apply H; now right).
    destruct (find0 (c :: o) s); reflexivity.
Qed.

Lemma replace_loop_correct old new :
  old <> [] -> List.length old <= List.length new -> no_restart old new ->
  forall n s pre t, List.length s <= n ->
  (forall c o, old = c :: o -> ~ In c t) ->
  forall fuel, n < fuel ->
  exists r, replace_loop fuel old new (pre ++ t ++ s) (List.length pre) = Ok (pre ++ t ++ r) /\ substituted old new s r.
Proof.
  intros Hne Hlen Hnr n.
  induction n as [n IH] using lt_wf_ind. intros s pre t Hs Ht fuel Hf.
  destruct fuel as [|fuel]; [lia|]. cbn [replace_loop].
  destruct old as [|c o] eqn:Eo; [contradiction|]. rewrite <- Eo in *.
  assert (Ht' : ~ In c t) by exact (Ht c o Eo).
  rewrite find_from_split. rewrite (find0_skip_free old c o t s Eo Ht').
  destruct (find0 old s) as [k|] eqn:F; simpl option_map.
  2:{ exists s. split; [reflexivity|]. apply substituted_none. now apply find0_None. }
  destruct (find0_Some _ _ _ F) as (Hk & [q Hq] & Hfirst).
  assert (Es : s = firstn k s ++ old ++ q) by (rewrite <- Hq; symmetry; apply firstn_skipn).
  set (a := firstn k s) in *.
  assert (La : List.length a = k) by (unfold a; rewrite firstn_length; lia).
  assert (Lo : List.length old = S (List.length o)) by (rewrite Eo; reflexivity).
  assert (Ls : List.length s = k + List.length old + List.length q).
  { rewrite Es, !app_length. lia. }
  replace (firstn (List.length pre + (List.length t + k)) (pre ++ t ++ s)) with (pre ++ t ++ a).
  2:{ rewrite firstn_app_2. f_equal. rewrite firstn_app_2. reflexivity. }
  replace (skipn (List.length pre + (List.length t + k) + List.length old) (pre ++ t ++ s)) with q.
  2:{ rewrite Es. replace (pre ++ t ++ a ++ old ++ q) with ((pre ++ t ++ a ++ old) ++ q) by (rewrite <- !app_assoc; reflexivity).
      rewrite skipn_app. rewrite !app_length, La.
      rewrite skipn_all2 by (rewrite !app_length; lia).
      replace (List.length pre + (List.length t + k) + List.length old - (List.length pre + (List.length t + (k + List.length old)))) with 0 by lia.
      reflexivity. }
  pose (pre' := pre ++ t ++ a ++ firstn (List.length old) new).
  assert (Lp : List.length pre' = List.length pre + (List.length t + k) + List.length old).
  { unfold pre'. rewrite !app_length, firstn_length, La. lia. }
  rewrite <- Lp.
  replace ((pre ++ t ++ a) ++ new ++ q) with (pre' ++ skipn (List.length old) new ++ q).
  2:{ unfold pre'. rewrite <- !app_assoc. do 3 f_equal. rewrite app_assoc, firstn_skipn. reflexivity. }
  destruct (IH (List.length q) ltac:(lia) q pre' (skipn (List.length old) new) (le_n _) Hnr fuel ltac:(lia)) as (r & Hr & Hsub).
  exists (a ++ new ++ r). split.
  - rewrite Hr. unfold pre'. rewrite <- !app_assoc. do 4 f_equal. rewrite app_assoc, firstn_skipn. reflexivity.
  - rewrite Es. subst a. rewrite <- Es at 1. 
    apply (substituted_skip old new k s (new ++ r)); [exact Hfirst|exact Hk|].
    rewrite Hq. constructor. exact Hsub.
Qed.

Lemma substituted_refl old s : old <> [] -> substituted old old s s.
Proof.
  intro Hne. remember (List.length s) as n eqn:En. revert s En.
  induction n as [n IH] using lt_wf_ind. intros s ->.
  destruct s as [|c s]; [constructor|].
  destruct (prefixb old (c :: s)) eqn:E.
  - apply prefixb_spec in E as [q E]. rewrite E. constructor. apply (IH (List.length q)); [|reflexivity].
    rewrite E, app_length. destruct old; [contradiction|simpl; lia].
  - constructor; [now apply prefixb_false|]. apply (IH (List.length s)); [simpl; lia|reflexivity].
Qed.

Lemma replaceAll_correct old new s :
  old <> [] -> List.length old <= List.length new -> no_restart old new ->
  forall fuel, List.length s < fuel -> exists r, replaceAll fuel s old new = Ok r /\ substituted old new s r.
Proof.
  intros Hne Hlen Hnr fuel Hf. unfold replaceAll. destruct (str_eqb_spec old new) as [->|N].
  - exists s. split; [reflexivity|now apply substituted_refl].
  - destruct (replace_loop_correct old new Hne Hlen Hnr (List.length s) s [] [] (le_n _) ltac:(intros; intros []) fuel Hf) as (r & Hr & K).
    exists r. split; [exact Hr|exact K].
Qed.

(** [substituted] is a function: the specification leaves no freedom. *)
Lemma substituted_functional old new : old <> [] -> forall s r1 r2,
  substituted old new s r1 -> substituted old new s r2 -> r1 = r2.
Proof.
  intros Hne s r1 r2 H. revert r2. induction H as [|rest r H IH|c rest r N H IH]; intros r2 K.
  - inversion K as [|? ? ? E|]; [reflexivity|]. destruct old; [contradiction|discriminate].
  - inversion K as [E|rest' r' K' E|c rest' r' N K' E].
    + destruct old; [contradiction|discriminate].
    + apply app_inv_head in E. subst. f_equal. now apply IH.
    + exfalso. now apply (N rest).
  - inversion K as [|rest' r' K' E|c' rest' r' N' K' E].
    + exfalso. now apply (N rest').
    + subst. f_equal. now apply IH.
Qed.

(** Termination when the replacement is not longer than the pattern. *)
Lemma replace_loop_terminates old new : old <> [] -> List.length new <= List.length old ->
  forall n out start fuel, List.length out - start <= n -> n < fuel ->
  exists r, replace_loop fuel old new out start = Ok r.
Proof.
  intros Hne Hlen n. induction n as [n IH] using lt_wf_ind. intros out start fuel Hn Hf.
  destruct fuel as [|fuel]; [lia|]. cbn [replace_loop].
  destruct (find_from old out start) as [pos|] eqn:F; [|now eexists].
  unfold find_from in F. destruct (Nat.ltb_spec (List.length out) start) as [|Hst]; [discriminate|].
  destruct (find0 old (skipn start out)) as [k|] eqn:G; [|discriminate]. simpl in F. injection F as <-.
  destruct (find0_Some _ _ _ G) as (Hk & [q Hq] & _). rewrite skipn_length in Hk.
  assert (Lq : List.length out = start + k + List.length old + List.length q).
  { apply (f_equal (@List.length ascii)) in Hq. rewrite !skipn_length, app_length in Hq. lia. }
  destruct old as [|c o] eqn:Eo; [contradiction|]. rewrite <- Eo in *.
  assert (0 < List.length old) by (rewrite Eo; simpl; lia).
  apply (IH (List.length out - start - 1)); [lia| |lia].
  rewrite !app_length, firstn_length, skipn_length. lia.
Qed.

Lemma replaceAll_terminates old new s : old <> [] -> List.length new <= List.length old ->
  forall fuel, List.length s < fuel -> exists r, replaceAll fuel s old new = Ok r.
Proof.
  intros Hne Hlen fuel Hf. unfold replaceAll. destruct (str_eqb old new); [now eexists|].
  apply (replace_loop_terminates old new Hne Hlen (List.length s)); lia.
Qed.

(** Non-termination: replacing "a" by "ba" in "a". *)
Lemma replace_loop_diverges fuel : forall n,
  replace_loop fuel ["a"%char] ["b"%char; "a"%char] (repeat "b"%char n ++ ["a"%char]) n = OutOfFuel.
Proof.
  induction fuel as [|fuel IH]; intro n; [reflexivity|]. cbn [replace_loop].
  assert (L : List.length (repeat "b"%char n) = n) by apply repeat_length.
  assert (F : find_from ["a"%char] (repeat "b"%char n ++ ["a"%char]) n = Some n).
  { rewrite <- L at 2. rewrite find_from_split, L. simpl. f_equal. lia. }
  rewrite F. simpl List.length.
  replace (firstn n (repeat "b"%char n ++ ["a"%char])) with (repeat "b"%char n).
  2:{ rewrite firstn_app, L, Nat.sub_diag, firstn_all2 by lia. simpl. now rewrite app_nil_r. }
  replace (skipn (n + 1) (repeat "b"%char n ++ ["a"%char])) with (@nil ascii).
  2:{ symmetry. apply skipn_all2. rewrite app_length, L. simpl. lia. }
  replace (repeat "b"%char n ++ ["b"%char; "a"%char] ++ []) with (repeat "b"%char (S n) ++ ["a"%char]).
  2:{ simpl app. change ["b"%char; "a"%char] with (["b"%char] ++ ["a"%char]). rewrite app_assoc, <- repeat_cons. reflexivity. }
  rewrite Nat.add_1_r. apply IH.
Qed.

Lemma replaceAll_diverges fuel : replaceAll fuel (S_ "a") (S_ "a") (S_ "ba") = OutOfFuel.
Proof. exact (replace_loop_diverges fuel 0). Qed.
