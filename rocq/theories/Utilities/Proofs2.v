From Verif.Common Require Import Prelude.
From Verif.Utilities Require Import Model Spec Proofs.
From Coq Require Import NArith.

(** * C04 wildcard *)

Lemma find_char_None w s : find_char w s = None <-> ~ In w s.
Proof.
  induction s as [|c s IH]; simpl; [tauto|].
  destruct (Ascii.eqb_spec c w) as [->|N].
  - split; [discriminate|intro H; exfalso; apply H; now left].
  - destruct (find_char w s); simpl; split; try discriminate.
    + intro H. exfalso. destruct IH as [_ IH]. discriminate IH. intro K. apply H. now right.
    + intros _ [K|K]; [congruence|]. now apply IH in K.
    + reflexivity.
Qed.

Lemma find_char_app w p q : ~ In w p -> find_char w (p ++ w :: q) = Some (List.length p).
Proof.
  induction p as [|c p IH]; intro H; simpl.
  - now rewrite Ascii.eqb_refl.
  - destruct (Ascii.eqb_spec c w) as [->|N]; [exfalso; apply H; now left|].
    rewrite IH; [reflexivity|]. intro K. apply H. now right.
Qed.

Lemma find_char_Some w s n : find_char w s = Some n -> exists p q, s = p ++ w :: q /\ List.length p = n /\ ~ In w p.
Proof.
  revert n; induction s as [|c s IH]; intros n H; simpl in H; [discriminate|].
  destruct (Ascii.eqb_spec c w) as [->|N].
  - injection H as <-. now exists [], s.
  - destruct (find_char w s) as [m|]; [|discriminate]. injection H as <-.
    destruct (IH m eq_refl) as (p & q & -> & <- & K). exists (c :: p), q. repeat split.
    intros [E|E]; [congruence|contradiction].
Qed.

Lemma find0_zero p s : match find0 p s with Some 0 => true | _ => false end = prefixb p s.
Proof.
  destruct s as [|c s]; cbn [find0]; destruct (prefixb p _); try reflexivity.
  destruct (find0 p s); reflexivity.
Qed.

(** The recursion of the source always ends, whatever the strings. *)
Lemma wildcard_fuel w : forall fuel input pat, List.length pat < fuel ->
  exists b, matches_wildcard_fuel fuel input pat w = Ok b.
Proof.
  induction fuel as [|f IH]; intros input pat H; [lia|]. cbn [matches_wildcard_fuel].
  destruct (str_eqb pat [w]); [now eexists|].
  destruct (find_char w pat) as [pos|] eqn:E; [|now eexists].
  destruct (find_char_Some _ _ _ E) as (p & q & Ep & Lp & _).
  destruct (Nat.eqb_spec pos (List.length pat - 1)); [now eexists|].
  match goal with |- exists b, (if ?x then _ else _) = _ => destruct x end; [|now eexists].
  match goal with |- exists b, match ?x with _ => _ end = _ => destruct x end; [|now eexists].
  apply IH. rewrite skipn_length. assert (List.length pat > 0) by (rewrite Ep, app_length; simpl; lia). lia.
Qed.

Lemma wildcard_total s pat w : exists b, stringMatchesWildcard s pat w = Ok b.
Proof. apply wildcard_fuel. lia. Qed.

Lemma glob_no_star w p s : ~ In w p -> (glob w p s <-> s = p).
Proof.
  revert s; induction p as [|c p IH]; intros s H; split; intro K.
  - inversion K; reflexivity.
  - subst. constructor.
  - inversion K; subst.
    + f_equal. apply IH; [|assumption]. intro X. apply H. now right.
    + exfalso. apply H. now left.
  - subst. constructor; [intros ->; apply H; now left|]. apply IH; [|reflexivity]. intro X. apply H. now right.
Qed.

Lemma glob_app_prefix w p pat s : ~ In w p -> (glob w (p ++ pat) s <-> exists t, s = p ++ t /\ glob w pat t).
Proof.
  revert s; induction p as [|c p IH]; intros s H; simpl.
  - split; [intro K; now exists s|intros (t & -> & K); exact K].
  - assert (Hc : c <> w) by (intros ->; apply H; now left).
    assert (Hp : ~ In w p) by (intro X; apply H; now right).
    split.
    + intro K. inversion K; subst; [|contradiction].
      match goal with X : glob w (p ++ pat) _ |- _ => apply IH in X; [|assumption]; destruct X as (t & -> & X) end.
      now exists t.
    + intros (t & -> & K). constructor; [assumption|]. apply IH; [assumption|]. now exists t.
Qed.

Lemma glob_star_iff w pat s : glob w (w :: pat) s <-> exists u t, s = u ++ t /\ glob w pat t.
Proof.
  split.
  - intro K. inversion K; subst; [contradiction|]. now repeat eexists.
  - intros (u & t & -> & K). now constructor.
Qed.

Lemma wildcard_no_star s pat w : ~ In w pat -> stringMatchesWildcard s pat w = Ok (str_eqb s pat).
Proof.
  intro H. unfold stringMatchesWildcard. cbn [matches_wildcard_fuel].
  destruct (str_eqb_spec pat [w]) as [->|]; [exfalso; apply H; now left|].
  apply find_char_None in H. rewrite H. reflexivity.
Qed.

Lemma wildcard_trailing s p w : ~ In w p -> stringMatchesWildcard s (p ++ [w]) w = Ok (prefixb p s).
Proof.
  intro H. unfold stringMatchesWildcard. cbn [matches_wildcard_fuel].
  destruct (str_eqb_spec (p ++ [w]) [w]) as [E|N].
  - destruct p as [|c [|d p]]; [reflexivity|discriminate|discriminate].
  - rewrite find_char_app by assumption. rewrite app_length. simpl List.length.
    rewrite Nat.add_sub, Nat.eqb_refl. rewrite find0_zero.
    rewrite firstn_app, Nat.sub_diag, firstn_all. simpl. now rewrite app_nil_r.
Qed.

(** One star in the middle: exact behaviour of the code. *)
Lemma wildcard_middle s p q w : ~ In w p -> ~ In w q -> q <> [] ->
  stringMatchesWildcard s (p ++ w :: q) w =
  Ok (prefixb p s && match find0 q s with None => false | Some k => str_eqb (skipn k s) q end).
Proof.
  intros Hp Hq Hne. unfold stringMatchesWildcard. 
  remember (List.length (p ++ w :: q)) as L eqn:EL. cbn [matches_wildcard_fuel].
  assert (HL : L = List.length p + S (List.length q)) by (rewrite EL, app_length; reflexivity).
  assert (Hql : List.length q > 0) by (destruct q; [contradiction|simpl; lia]).
  destruct (str_eqb_spec (p ++ w :: q) [w]) as [E|N].
  { apply (f_equal (@List.length ascii)) in E. rewrite <- EL in E. simpl in E. lia. }
  rewrite find_char_app by assumption. rewrite <- EL.
  destruct (Nat.eqb_spec (List.length p) (L - 1)); [lia|].
  replace (firstn (List.length p + 1) (p ++ w :: q)) with (p ++ [w]).
  2:{ rewrite firstn_app_2. reflexivity. }
  replace (skipn (List.length p + 1) (p ++ w :: q)) with q.
  2:{ rewrite skipn_app. rewrite skipn_all2 by lia. replace (List.length p + 1 - List.length p) with 1 by lia. reflexivity. }
  replace (if str_eqb (p ++ [w]) [w] then true
           else match find0 (firstn (List.length (p ++ [w]) - 1) (p ++ [w])) s with Some 0 => true | _ => false end)
     with (prefixb p s).
  2:{ destruct (str_eqb_spec (p ++ [w]) [w]) as [E|_].
      - destruct p as [|c [|d p]]; [reflexivity|discriminate|discriminate].
      - rewrite app_length. simpl List.length. rewrite Nat.add_sub, find0_zero.
        rewrite firstn_app, Nat.sub_diag, firstn_all. simpl. now rewrite app_nil_r. }
  destruct (prefixb p s); [|reflexivity]. simpl andb.
  assert (Fq : find_char w q = None) by now apply find_char_None.
  rewrite Fq. simpl upto.
  destruct (find0 q s) as [k|]; [|reflexivity].
  destruct L as [|L]; [lia|]. cbn [matches_wildcard_fuel].
  destruct (str_eqb_spec q [w]) as [->|]; [exfalso; apply Hq; now left|].
  rewrite Fq. reflexivity.
Qed.

Lemma wildcard_middle_glob s p q w : ~ In w p -> ~ In w q -> q <> [] ->
  List.length p + List.length q <= List.length s ->
  (forall i j u v, skipn i s = q ++ u -> skipn j s = q ++ v -> i = j) ->
  stringMatchesWildcard s (p ++ w :: q) w = Ok true <-> glob w (p ++ w :: q) s.
Proof.
  intros Hp Hq Hne Hlen Huniq. rewrite wildcard_middle by assumption.
  rewrite glob_app_prefix by assumption. 
  assert (Hglob : (exists t, s = p ++ t /\ glob w (w :: q) t) <-> exists u, s = p ++ u ++ q).
  { split.
    - intros (t & -> & K). apply glob_star_iff in K as (u & t' & -> & K). apply glob_no_star in K; [|assumption]. subst. now exists u.
    - intros (u & ->). exists (u ++ q). split; [reflexivity|]. apply glob_star_iff. exists u, q. split; [reflexivity|]. now apply glob_no_star. }
  rewrite Hglob. split.
  - intro E. injection E as E. apply andb_true_iff in E as [E1 E2]. apply prefixb_spec in E1 as [t ->].
    destruct (find0 q (p ++ t)) as [k|] eqn:F; [|discriminate]. apply str_eqb_eq in E2.
    rewrite app_length in Hlen.
    assert (Lk : k = List.length p + (List.length t - List.length q)).
    { apply (f_equal (@List.length ascii)) in E2. rewrite skipn_length, app_length in E2.
      assert (List.length q > 0) by (destruct q; [contradiction|simpl; lia]). lia. }
    rewrite Lk in E2. rewrite skipn_app in E2. rewrite skipn_all2 in E2 by lia.
    replace (List.length p + (List.length t - List.length q) - List.length p) with (List.length t - List.length q) in E2 by lia.
    simpl in E2. exists (firstn (List.length t - List.length q) t). rewrite <- E2 at 2. now rewrite firstn_skipn.
  - intros [u E]. f_equal. apply andb_true_iff. split.
    + apply prefixb_spec. now exists (u ++ q).
    + destruct (find0 q s) as [k|] eqn:F.
      * destruct (find0_Some _ _ _ F) as (_ & [v Hv] & _).
        assert (Hend : skipn (List.length (p ++ u)) s = q ++ []).
        { rewrite E, app_assoc, skipn_app, skipn_all, Nat.sub_diag. simpl. now rewrite app_nil_r. }
        rewrite (Huniq _ _ _ _ Hv Hend), Hend, app_nil_r. apply str_eqb_refl.
      * exfalso. apply (find0_None _ _ F (List.length (p ++ u)) []).
        rewrite E, app_assoc, skipn_app, skipn_all, Nat.sub_diag. simpl. now rewrite app_nil_r.
Qed.

(** * C05 edit distance *)

Inductive align : nat -> str -> str -> Prop :=
| a_nil : align 0 [] []
| a_keep n c a b : align n a b -> align n (c :: a) (c :: b)
| a_sub n c d a b : align n a b -> align (S n) (c :: a) (d :: b)
| a_ins n d a b : align n a b -> align (S n) a (d :: b)
| a_del n c a b : align n a b -> align (S n) (c :: a) b.

Inductive step1 : str -> str -> Prop :=
| s_ins c v : step1 v (c :: v)
| s_del c v : step1 (c :: v) v
| s_sub c d v : step1 (c :: v) (d :: v)
| s_cons c a b : step1 a b -> step1 (c :: a) (c :: b).

Lemma edit1_step1 a b : edit1 a b -> step1 a b.
Proof.
  intros [u v c|u v c|u v c d]; induction u as [|x u IH]; simpl; constructor; assumption.
Qed.

Lemma step1_edit1 a b : step1 a b -> edit1 a b.
Proof.
  induction 1 as [c v|c v|c d v|c a b H IH].
  - exact (e_ins [] v c).
  - exact (e_del [] v c).
  - exact (e_sub [] v c d).
  - destruct IH as [u v x|u v x|u v x y].
    + exact (e_ins (c :: u) v x).
    + exact (e_del (c :: u) v x).
    + exact (e_sub (c :: u) v x y).
Qed.

Lemma align_step n b c : align n b c -> forall a, step1 a b -> exists m, m <= S n /\ align m a c.
Proof.
  induction 1 as [|n x b c H IH|n x d b c H IH|n d b c H IH|n x b c H IH]; intros a S1.
  - inversion S1; subst. exists 1. split; [lia|]. repeat constructor.
  - inversion S1; subst.
    + exists (S n). split; [lia|]. now apply a_ins.
    + exists (S n). split; [lia|]. apply a_del. now apply a_keep.
    + exists (S n). split; [lia|]. now apply a_sub.
    + destruct (IH _ ltac:(eassumption)) as (m & Hm & K). exists m. split; [lia|]. now apply a_keep.
  - inversion S1; subst.
    + exists (S n). split; [lia|]. now apply a_ins.
    + exists (S (S n)). split; [lia|]. apply a_del. now apply a_sub.
    + exists (S n). split; [lia|]. now apply a_sub.
    + destruct (IH _ ltac:(eassumption)) as (m & Hm & K). exists (S m). split; [lia|]. now apply a_sub.
  - destruct (IH _ S1) as (m & Hm & K). exists (S m). split; [lia|]. now apply a_ins.
  - inversion S1; subst.
    + exists n. split; [lia|assumption].
    + exists (S (S n)). split; [lia|]. apply a_del. now apply a_del.
    + exists (S n). split; [lia|]. now apply a_del.
    + destruct (IH _ ltac:(eassumption)) as (m & Hm & K). exists (S m). split; [lia|]. now apply a_del.
Qed.

Lemma align_refl a : align 0 a a.
Proof. induction a; constructor; assumption. Qed.

Lemma edits_align n a b : edits n a b -> exists m, m <= n /\ align m a b.
Proof.
  induction 1 as [a|n a b c H K IH].
  - exists 0. split; [lia|apply align_refl].
  - destruct IH as (m & Hm & A). destruct (align_step _ _ _ A a (edit1_step1 _ _ H)) as (k & Hk & B).
    exists k. split; [lia|assumption].
Qed.

Lemma edits_cons n c a b : edits n a b -> edits n (c :: a) (c :: b).
Proof.
  induction 1 as [a|n a b d H K IH]; [constructor|].
  apply edits_S with (c :: b); [|assumption].
  apply step1_edit1. constructor. now apply edit1_step1.
Qed.

Lemma align_edits n a b : align n a b -> edits n a b.
Proof.
  induction 1 as [|n c a b H IH|n c d a b H IH|n d a b H IH|n c a b H IH].
  - constructor.
  - now apply edits_cons.
  - apply edits_S with (d :: a); [exact (e_sub [] a c d)|now apply edits_cons].
  - apply edits_S with (d :: a); [exact (e_ins [] a d)|now apply edits_cons].
  - apply edits_S with a; [exact (e_del [] a c)|assumption].
Qed.

Lemma edit1_rev a b : edit1 a b -> edit1 (rev a) (rev b).
Proof.
  intros [u v c|u v c|u v c d]; rewrite !rev_app_distr; simpl; rewrite <- !app_assoc; simpl; constructor.
Qed.

Lemma edits_rev n a b : edits n a b -> edits n (rev a) (rev b).
Proof.
  induction 1 as [a|n a b c H K IH]; [constructor|]. apply edits_S with (rev b); [now apply edit1_rev|assumption].
Qed.

Fixpoint lev (a : str) : str -> nat :=
  match a with
  | [] => fun b => List.length b
  | c :: a' => fix g b := match b with
      | [] => S (List.length a')
      | d :: b' => Nat.min (lev a' b + 1) (Nat.min (g b' + 1) (lev a' b' + (if Ascii.eqb c d then 0 else 1)))
      end
  end.

Lemma lev_cons c a d b : lev (c :: a) (d :: b) =
  Nat.min (lev a (d :: b) + 1) (Nat.min (lev (c :: a) b + 1) (lev a b + (if Ascii.eqb c d then 0 else 1))).
Proof. reflexivity. Qed.

Lemma lev_nil_r a : lev a [] = List.length a.
Proof. destruct a; reflexivity. Qed.

Lemma align_lev a : forall b, align (lev a b) a b.
Proof.
  induction a as [|c a IH].
  - induction b as [|d b IHb]; [constructor|]. simpl in *. now apply a_ins.
  - induction b as [|d b IHb].
    + simpl. apply a_del. rewrite <- lev_nil_r. apply IH.
    + rewrite lev_cons.
      set (x := lev a (d :: b) + 1). set (y := lev (c :: a) b + 1).
      set (z := lev a b + (if Ascii.eqb c d then 0 else 1)).
      assert (X : align x (c :: a) (d :: b)).
      { unfold x. rewrite Nat.add_1_r. apply a_del, IH. }
      assert (Y : align y (c :: a) (d :: b)).
      { unfold y. rewrite Nat.add_1_r. apply a_ins, IHb. }
      assert (Z : align z (c :: a) (d :: b)).
      { unfold z. destruct (Ascii.eqb_spec c d) as [->|].
        - rewrite Nat.add_0_r. apply a_keep, IH.
        - rewrite Nat.add_1_r. apply a_sub, IH. }
      destruct (Nat.min_dec x (Nat.min y z)) as [-> | ->]; [assumption|].
      destruct (Nat.min_dec y z) as [-> | ->]; assumption.
Qed.

Lemma lev_align n a b : align n a b -> lev a b <= n.
Proof.
  induction 1 as [|n c a b H IH|n c d a b H IH|n d a b H IH|n c a b H IH].
  - reflexivity.
  - rewrite lev_cons, Ascii.eqb_refl. lia.
  - rewrite lev_cons. destruct (Ascii.eqb c d); lia.
  - destruct a as [|c a]; [simpl in *; lia|]. rewrite lev_cons. lia.
  - destruct b as [|d b]; [rewrite lev_nil_r in *; simpl; lia|]. rewrite lev_cons. lia.
Qed.

Fixpoint rowof (ra rb s2 : str) : list nat :=
  lev ra rb :: match s2 with [] => [] | d :: s2' => rowof ra (d :: rb) s2' end.

Lemma ed_row_correct c ra s2 : forall rb,
  lev (c :: ra) rb :: ed_row c s2 (rowof ra rb s2) (lev (c :: ra) rb) = rowof (c :: ra) rb s2.
Proof.
  induction s2 as [|d s2 IH]; intro rb; [reflexivity|].
  cbn [rowof]. f_equal. rewrite <- IH.
  destruct s2 as [|e s2].
  - reflexivity.
  - reflexivity.
Qed.

Lemma ed_rows_correct s2 : forall s1 ra,
  ed_rows s1 s2 (S (List.length ra)) (rowof ra [] s2) = rowof (rev s1 ++ ra) [] s2.
Proof.
  induction s1 as [|c s1 IH]; intro ra; [reflexivity|]. cbn [ed_rows].
  replace (S (List.length ra) :: ed_row c s2 (rowof ra [] s2) (S (List.length ra))) with (rowof (c :: ra) [] s2).
  2:{ rewrite <- ed_row_correct. rewrite lev_nil_r. reflexivity. }
  refine (eq_trans (IH (c :: ra)) _). simpl rev. rewrite <- app_assoc. reflexivity.
Qed.

Lemma rowof_nil s2 : forall rb, rowof [] rb s2 = seq (List.length rb) (S (List.length s2)).
Proof.
  induction s2 as [|d s2 IH]; intro rb; [reflexivity|]. cbn [rowof]. rewrite IH. reflexivity.
Qed.

Lemma last_rowof ra s2 x : forall rb, last (rowof ra rb s2) x = lev ra (rev s2 ++ rb).
Proof.
  induction s2 as [|d s2 IH]; intro rb; [reflexivity|].
  assert (E : rowof ra rb (d :: s2) = lev ra rb :: rowof ra (d :: rb) s2) by reflexivity.
  rewrite E. transitivity (last (rowof ra (d :: rb) s2) x).
  - destruct s2; reflexivity.
  - rewrite IH. simpl. rewrite <- app_assoc. reflexivity.
Qed.

Lemma editDistance_lev s1 s2 : editDistance s1 s2 = lev (rev s1) (rev s2).
Proof.
  unfold editDistance. change (seq 0 (S (List.length s2))) with (seq (List.length (@nil ascii)) (S (List.length s2))).
  rewrite <- (rowof_nil s2 []).
  change 1 with (S (List.length (@nil ascii))).
  rewrite (ed_rows_correct s2 s1 []), last_rowof.
  now rewrite !app_nil_r.
Qed.

Lemma editDistance_minimal s1 s2 :
  edits (editDistance s1 s2) s1 s2 /\ (forall n, edits n s1 s2 -> editDistance s1 s2 <= n).
Proof.
  rewrite editDistance_lev. split.
  - rewrite <- (rev_involutive s1) at 2. rewrite <- (rev_involutive s2) at 2.
    apply edits_rev, align_edits, align_lev.
  - intros n H. apply edits_rev in H. apply edits_align in H as (m & Hm & A).
    apply lev_align in A. lia.
Qed.

(** * C07 trim *)

Lemma isspace_white c : isspace c = true <-> white c.
Proof.
  unfold isspace, white. rewrite orb_true_iff, andb_true_iff, !Nat.leb_le, Nat.eqb_eq. simpl. lia.
Qed.

Lemma isspace_not c : isspace c = false <-> ~ white c.
Proof. rewrite <- isspace_white. destruct (isspace c); split; congruence. Qed.

Lemma ltrim_spec s : exists l, s = l ++ ltrim s /\ Forall white l /\ (forall c u, ltrim s = c :: u -> ~ white c).
Proof.
  induction s as [|c s IH]; simpl.
  - exists []. repeat split; [constructor|discriminate].
  - destruct (isspace c) eqn:E.
    + destruct IH as (l & K & F & H). exists (c :: l). repeat split.
      * simpl. now f_equal.
      * constructor; [now apply isspace_white|assumption].
      * assumption.
    + exists []. repeat split; [constructor|]. intros d u K. injection K as <- <-. now apply isspace_not.
Qed.

Lemma rtrim_spec s : exists r, s = rtrim s ++ r /\ Forall white r /\ (forall c u, rtrim s = u ++ [c] -> ~ white c).
Proof.
  destruct (ltrim_spec (rev s)) as (l & E & F & H). exists (rev l). repeat split.
  - unfold rtrim. rewrite <- rev_app_distr, <- E, rev_involutive. reflexivity.
  - rewrite Forall_forall in *. intros x Hx. apply F. now apply in_rev.
  - unfold rtrim. intros c u K. apply (H c (rev u)). rewrite <- (rev_involutive (ltrim (rev s))), K, rev_app_distr. reflexivity.
Qed.

Lemma trim_trimmed s : trimmed s (trim s).
Proof.
  unfold trim. destruct (rtrim_spec s) as (r & Er & Fr & Hr). destruct (ltrim_spec (rtrim s)) as (l & El & Fl & Hl).
  repeat split.
  - exists l, r. repeat split; [|assumption|assumption]. rewrite app_assoc, <- El. assumption.
  - assumption.
  - intros c u K. apply (Hr c (l ++ u)). rewrite <- app_assoc, <- K. assumption.
Qed.

Lemma trimmed_self t : (forall c u, t = c :: u -> ~ white c) -> ltrim t = t.
Proof.
  destruct t as [|c t]; [reflexivity|]. intro H. simpl. specialize (H c t eq_refl).
  apply isspace_not in H. now rewrite H.
Qed.

Lemma trimmed_unique s t1 t2 : trimmed s t1 -> trimmed s t2 -> t1 = t2.
Proof.
  assert (G : forall l t r, Forall white l -> Forall white r -> (forall c u, t = c :: u -> ~ white c) ->
            (forall c u, t = u ++ [c] -> ~ white c) -> trim (l ++ t ++ r) = t).
  { intros l t r Fl Fr Hc Hl.
    assert (L1 : forall x y, Forall white x -> ltrim (x ++ y) = ltrim y).
    { induction 1 as [|c x Hw _ IH]; [reflexivity|]. simpl. apply isspace_white in Hw. now rewrite Hw. }
    assert (R1 : forall x y, Forall white y -> rtrim (x ++ y) = rtrim x).
    { intros x y Fy. unfold rtrim. rewrite rev_app_distr, L1; [reflexivity|].
      rewrite Forall_forall in *. intros z Hz. apply Fy. now apply in_rev. }
    unfold trim. rewrite app_assoc, R1 by assumption.
    destruct t as [|c t].
    - rewrite app_nil_r. rewrite <- (app_nil_l l), R1 by assumption. reflexivity.
    - assert (E : rtrim (l ++ c :: t) = l ++ c :: t).
      { unfold rtrim. rewrite trimmed_self; [apply rev_involutive|].
        intros d u K. apply (f_equal (@rev ascii)) in K. rewrite rev_involutive in K. simpl in K.
        destruct (@exists_last _ (c :: t) ltac:(discriminate)) as (t' & e & Et).
        rewrite Et, app_assoc in K. apply app_inj_tail in K as [_ ->]. now apply (Hl d t'). }
      rewrite E, L1 by assumption. now apply trimmed_self. }
  intros ((l1 & r1 & E1 & A1 & B1) & C1 & D1) ((l2 & r2 & E2 & A2 & B2) & C2 & D2).
  rewrite <- (G l1 t1 r1), <- (G l2 t2 r2) by assumption. now rewrite <- E1, <- E2.
Qed.

Lemma trim_idempotent s : trim (trim s) = trim s.
Proof.
  apply (trimmed_unique (trim s)); [apply trim_trimmed|].
  destruct (trim_trimmed s) as (_ & H1 & H2).
  repeat split; [|exact H1|exact H2]. exists [], []. rewrite app_nil_r. repeat split; constructor.
Qed.

(** * C08 hash *)
Local Open Scope N_scope.

Lemma fnv_mul_inj x y : x < 2 ^ 32 -> y < 2 ^ 32 ->
  (x * 16777619) mod 2 ^ 32 = (y * 16777619) mod 2 ^ 32 -> x = y.
Proof.
  intros Hx Hy E.
  assert (I : forall z, z < 2 ^ 32 -> (((z * 16777619) mod 2 ^ 32) * 899433627) mod 2 ^ 32 = z).
  { intros z Hz. rewrite N.mul_mod_idemp_l by discriminate. rewrite <- N.mul_assoc.
    rewrite <- N.mul_mod_idemp_r by discriminate.
    replace ((16777619 * 899433627) mod 2 ^ 32) with 1 by reflexivity.
    rewrite N.mul_1_r. now apply N.mod_small. }
  rewrite <- (I x Hx), <- (I y Hy), E. reflexivity.
Qed.

Lemma lt_pow2_testbit x n : x < 2 ^ n <-> (forall m, n <= m -> N.testbit x m = false).
Proof.
  split.
  - intros H m Hm. destruct (N.eq_dec x 0) as [->|Hz]; [apply N.bits_0|].
    apply N.bits_above_log2. apply N.log2_lt_pow2 in H; [|lia]. lia.
  - intro H. destruct (N.eq_dec x 0) as [->|Hz]; [apply N.neq_0_lt_0; apply N.pow_nonzero; discriminate|].
    destruct (N.lt_ge_cases x (2 ^ n)) as [|K]; [assumption|].
    apply N.log2_le_pow2 in K; [|lia]. apply H in K. rewrite N.bit_log2 in K by assumption. discriminate.
Qed.

Lemma lxor_lt x y n : x < 2 ^ n -> y < 2 ^ n -> N.lxor x y < 2 ^ n.
Proof.
  rewrite !lt_pow2_testbit. intros Hx Hy m Hm. now rewrite N.lxor_spec, Hx, Hy.
Qed.

Lemma N_ascii_small c : N_of_ascii c < 256.
Proof. destruct c as [[] [] [] [] [] [] [] []]; reflexivity. Qed.

Lemma char_small c : char_as_unsigned c < 2 ^ 32.
Proof.
  unfold char_as_unsigned. pose proof (N_ascii_small c).
  change (2 ^ 32) with 4294967296. destruct (N.ltb_spec (N_of_ascii c) 128); lia.
Qed.

Lemma char_as_unsigned_inj c d : char_as_unsigned c = char_as_unsigned d -> c = d.
Proof.
  unfold char_as_unsigned. pose proof (N_ascii_small c). pose proof (N_ascii_small d).
  change (2 ^ 32 - 256) with 4294967040. intro E.
  rewrite <- (ascii_N_embedding c), <- (ascii_N_embedding d). f_equal.
  destruct (N.ltb_spec (N_of_ascii c) 128); destruct (N.ltb_spec (N_of_ascii d) 128); lia.
Qed.

Lemma FNV1a_step_small h c : FNV1a_step h c < 2 ^ 32.
Proof. unfold FNV1a_step. apply N.mod_lt. discriminate. Qed.

Lemma FNV1a_step_inj_hash h k c : h < 2 ^ 32 -> k < 2 ^ 32 -> FNV1a_step h c = FNV1a_step k c -> h = k.
Proof.
  intros Hh Hk E. unfold FNV1a_step in E. apply fnv_mul_inj in E; try (apply lxor_lt; [assumption|apply char_small]).
  apply (f_equal (fun x => N.lxor x (char_as_unsigned c))) in E. rewrite !N.lxor_assoc, !N.lxor_nilpotent, !N.lxor_0_r in E. exact E.
Qed.

Lemma FNV1a_step_inj_char h c d : h < 2 ^ 32 -> FNV1a_step h c = FNV1a_step h d -> c = d.
Proof.
  intros Hh E. unfold FNV1a_step in E. apply fnv_mul_inj in E; try (apply lxor_lt; [assumption|apply char_small]).
  apply char_as_unsigned_inj. apply (f_equal (N.lxor h)) in E. rewrite <- !N.lxor_assoc, !N.lxor_nilpotent, !N.lxor_0_l in E. exact E.
Qed.

Lemma FNV_fold_inj s : forall h k, h < 2 ^ 32 -> k < 2 ^ 32 -> fold_left FNV1a_step s h = fold_left FNV1a_step s k -> h = k.
Proof.
  induction s as [|c s IH]; intros h k Hh Hk E; [exact E|]. simpl in E.
  apply IH in E; try apply FNV1a_step_small. now apply FNV1a_step_inj_hash in E.
Qed.

Lemma FNV_fold_small s : forall h, h < 2 ^ 32 -> fold_left FNV1a_step s h < 2 ^ 32.
Proof. induction s as [|c s IH]; intros h Hh; [exact Hh|]. simpl. apply IH, FNV1a_step_small. Qed.

Lemma FNV_single_char u v c d : c <> d -> FNV1a_hash (u ++ c :: v) <> FNV1a_hash (u ++ d :: v).
Proof.
  intros N E. apply N. unfold FNV1a_hash in E. rewrite !fold_left_app in E. simpl in E.
  assert (H : fold_left FNV1a_step u 2166136261 < 2 ^ 32) by (apply FNV_fold_small; reflexivity).
  apply FNV_fold_inj in E; try apply FNV1a_step_small. now apply FNV1a_step_inj_char in E.
Qed.
