From Verif.Order Require Import Model Spec.
From Coq Require Import Permutation Sorted.

(** The comparison as a lexicographic one. *)
Definition sp a := twoSpin (props_of a).
Definition st a := Z.b2z (isStable a).
Definition ma a := mass (props_of a).
Definition ch a := charge (props_of a).
Definition id a := pid (props_of a).
Definition ix a := Z.of_nat (index a).
Definition lex a b : Prop :=
  (sp b < sp a \/ sp a = sp b /\ (st a < st b \/ st a = st b /\ (ma b < ma a \/ ma a = ma b /\ (ch b < ch a \/ ch a = ch b /\
    (id b < id a \/ id a = id b /\ ix a < ix b)))))%Z.

Lemma less_lex S a b : charged_up S -> S a -> S b -> (less a b = true <-> lex a b).
Proof.
  intros H Sa Sb. pose proof (H a b Sa Sb) as H1. pose proof (H b a Sb Sa) as H2.
  unfold lex, sp, st, ma, ch, id, ix, less in *. destruct (isStable a), (isStable b); cbn [andb negb Z.b2z];
  repeat match goal with |- context [Z.eqb ?x ?y] => destruct (Z.eqb_spec x y); cbn [andb negb] end;
  rewrite ?Z.ltb_lt, ?Nat.ltb_lt; split; intro; try congruence; try lia.
Qed.

Lemma less_lex_false S a b : charged_up S -> S a -> S b -> (less a b = false <-> ~ lex a b).
Proof. intros H Sa Sb. rewrite <- (less_lex S a b H Sa Sb). destruct (less a b); split; congruence. Qed.

Lemma less_order S : charged_up S -> strict_weak S less.
Proof.
  intro H. constructor.
  - intros a Sa. apply (less_lex_false S a a H Sa Sa). unfold lex. lia.
  - intros a b c Sa Sb Sc. rewrite (less_lex S a b H Sa Sb), (less_lex S b c H Sb Sc), (less_lex S a c H Sa Sc). unfold lex. lia.
  - intros a b c Sa Sb Sc. rewrite (less_lex_false S a b H Sa Sb), (less_lex_false S b c H Sb Sc), (less_lex_false S a c H Sa Sc), (less_lex_false S b a H Sb Sa), (less_lex_false S c b H Sc Sb).
    unfold lex. lia.
Qed.

Lemma less_total S a b : charged_up S -> S a -> S b -> less a b = false -> less b a = false -> alike a b.
Proof.
  intros H Sa Sb. rewrite (less_lex_false S a b H Sa Sb), (less_lex_false S b a H Sb Sa). unfold lex, alike, sp, st, ma, ch, id, ix. intros H1 H2.
  destruct (isStable a), (isStable b); cbn [Z.b2z] in *; repeat split; try reflexivity; try lia.
Qed.

(** ** Sorting with any strict weak order *)
Section sort.
Context (S : particle -> Prop) (W : strict_weak S less).

Lemma insert_perm x l : Permutation (x :: l) (insert x l).
Proof. induction l as [|y r IH]; cbn; [auto|]. destruct (less y x); [|auto]. etransitivity; [apply perm_swap|]. now constructor. Qed.
Lemma sort_perm l : Permutation l (stable_sort l).
Proof. induction l as [|x r IH]; cbn; [auto|]. etransitivity; [apply perm_skip, IH|]. apply insert_perm. Qed.

Lemma asym a b : S a -> S b -> less a b = true -> less b a = false.
Proof. intros Sa Sb H. destruct (less b a) eqn:E; [|reflexivity]. pose proof (trans S less W a b a Sa Sb Sa H E). pose proof (irrefl S less W a Sa). congruence. Qed.
(** "not larger" is transitive *)
Lemma nlt_trans a b c : S a -> S b -> S c -> less b a = false -> less c b = false -> less c a = false.
Proof.
  intros Sa Sb Sc H1 H2. destruct (less c a) eqn:E; [|reflexivity].
  destruct (less a b) eqn:E1; [pose proof (trans S less W c a b Sc Sa Sb E E1); congruence|].
  destruct (less b c) eqn:E2; [pose proof (trans S less W b c a Sb Sc Sa E2 E); congruence|].
  pose proof (incomparable S less W c b a Sc Sb Sa H2 E2 H1 E1). congruence.
Qed.
Lemma tie_sym a b : tie less a b = tie less b a.
Proof. unfold tie. apply andb_comm. Qed.
Lemma tie_true a b : tie less a b = true <-> less a b = false /\ less b a = false.
Proof. unfold tie. rewrite andb_true_iff, !negb_true_iff. tauto. Qed.
Lemma tie_refl a : S a -> tie less a a = true.
Proof. intro H. apply tie_true. split; now apply (irrefl S less W). Qed.
Lemma tie_trans a b c : S a -> S b -> S c -> tie less a b = true -> tie less b c = true -> tie less a c = true.
Proof.
  intros Sa Sb Sc. rewrite !tie_true. intros [H1 H2] [H3 H4]. split.
  - now apply (incomparable S less W a b c).
  - now apply (incomparable S less W c b a).
Qed.

Lemma insert_sorted x l : S x -> Forall S l -> StronglySorted (fun a b => less b a = false) l -> StronglySorted (fun a b => less b a = false) (insert x l).
Proof.
  intros Sx. induction l as [|y r IH]; intros Sl H; cbn; [repeat constructor|].
  apply StronglySorted_inv in H as [H1 H2]. pose proof (Forall_inv Sl) as Sy. pose proof (Forall_inv_tail Sl) as Sr.
  destruct (less y x) eqn:E.
  - constructor; [now apply IH|]. apply (Permutation_Forall (insert_perm x r)). constructor; [now apply asym|exact H2].
  - constructor; [now constructor|]. constructor; [exact E|]. rewrite Forall_forall in *. intros z Hz.
    apply (nlt_trans x y z); auto.
Qed.
Lemma sort_sorted l : Forall S l -> StronglySorted (fun a b => less b a = false) (stable_sort l).
Proof.
  induction l as [|x r IH]; intro H; cbn; [constructor|]. pose proof (Forall_inv H). pose proof (Forall_inv_tail H).
  apply insert_sorted; auto. apply (Permutation_Forall (sort_perm r)). auto.
Qed.

Lemma insert_filter a x l : S a -> S x -> Forall S l -> filter (tie less a) (insert x l) = (if tie less a x then [x] else []) ++ filter (tie less a) l.
Proof.
  intros Sa Sx. induction l as [|y r IH]; intro H; cbn [insert filter]; [now destruct (tie less a x)|].
  destruct (less y x) eqn:E; cbn [filter]; [|now destruct (tie less a x)].
  rewrite IH by (eapply Forall_inv_tail; eauto). destruct (tie less a x) eqn:T; [|now destruct (tie less a y)].
  destruct (tie less a y) eqn:T2; [|reflexivity]. exfalso. pose proof (Forall_inv H) as Sy.
  rewrite tie_sym in T2. pose proof (tie_trans y a x Sy Sa Sx T2 T) as T3. apply tie_true in T3. destruct T3. congruence.
Qed.
Lemma sort_filter a l : S a -> Forall S l -> filter (tie less a) (stable_sort l) = filter (tie less a) l.
Proof.
  intros Sa. induction l as [|x r IH]; intro H; [reflexivity|]. pose proof (Forall_inv H). pose proof (Forall_inv_tail H).
  change (stable_sort (x :: r)) with (insert x (stable_sort r)). rewrite insert_filter; auto.
  - rewrite IH by assumption. cbn. now destruct (tie less a x).
  - apply (Permutation_Forall (sort_perm r)). auto.
Qed.

Lemma sort_ok l : Forall S l -> stably_sorted less l (stable_sort l).
Proof.
  intro H. split; [apply sort_perm|]. split; [now apply sort_sorted|]. intros a Ha. apply sort_filter; [|assumption].
  rewrite Forall_forall in H. auto.
Qed.

Lemma sorted_unique l1 l2 : Forall S l1 -> Permutation l1 l2 -> StronglySorted (fun a b => less b a = false) l1 -> StronglySorted (fun a b => less b a = false) l2 ->
  (forall a, In a l1 -> filter (tie less a) l1 = filter (tie less a) l2) -> l1 = l2.
Proof.
  revert l2; induction l1 as [|x t IH]; intros l2 HS P S1 S2 F.
  - apply Permutation_nil in P. congruence.
  - destruct l2 as [|y u]; [apply Permutation_sym, Permutation_nil in P; congruence|].
    pose proof (Permutation_Forall P HS) as HS2. pose proof (Forall_inv HS) as Sx. pose proof (Forall_inv HS2) as Sy.
    apply StronglySorted_inv in S1 as [S1 F1], S2 as [S2 F2]. rewrite Forall_forall in F1, F2.
    assert (E1 : less y x = false).
    { assert (I : In y (x :: t)) by (apply (Permutation_in y (Permutation_sym P)); now left). destruct I as [<- | I]; [now apply (irrefl S less W)|auto]. }
    assert (E2 : less x y = false).
    { assert (I : In x (y :: u)) by (apply (Permutation_in x P); now left). destruct I as [<- | I]; [now apply (irrefl S less W)|auto]. }
    assert (T : tie less x y = true) by now apply tie_true.
    pose proof (F x (or_introl eq_refl)) as Fx. cbn [filter] in Fx. rewrite T, tie_refl in Fx by assumption. injection Fx as <- _.
    f_equal. apply IH; auto; [eapply Forall_inv_tail; eauto|eapply Permutation_cons_inv; eauto|].
    intros a Ha. specialize (F a (or_intror Ha)). cbn [filter] in F. destruct (tie less a x); congruence.
Qed.
Lemma stable_unique l l1 l2 : Forall S l -> stably_sorted less l l1 -> stably_sorted less l l2 -> l1 = l2.
Proof.
  intros H (P1 & S1 & F1) (P2 & S2 & F2). apply sorted_unique; auto.
  - exact (Permutation_Forall P1 H).
  - etransitivity; [symmetry; exact P1|exact P2].
  - intros a Ha. pose proof (Permutation_in a (Permutation_sym P1) Ha). rewrite F1, F2; auto.
Qed.

Lemma filter_perm {A} (f : A -> bool) l l' : Permutation l l' -> Permutation (filter f l) (filter f l').
Proof.
  induction 1; cbn; auto.
  - destruct (f x); auto.
  - destruct (f x), (f y); auto. apply perm_swap.
  - etransitivity; eauto.
Qed.
Lemma same_lists {A} (a : A) l l' : Permutation l l' -> Forall (eq a) l -> l = l'.
Proof.
  intros P H. pose proof (Permutation_Forall P H) as H'. pose proof (Permutation_length P) as L. clear P.
  revert l' H' L; induction l as [|x t IH]; intros [|y u] H' L; cbn in L; try congruence; try reflexivity.
  rewrite <- (Forall_inv H), <- (Forall_inv H'). f_equal. apply IH; [eapply Forall_inv_tail; eauto|eapply Forall_inv_tail; eauto|congruence].
Qed.
Lemma sort_canonical l l' : Forall S l -> Permutation l l' -> (forall a b, In a l -> In b l -> tie less a b = true -> a = b) -> stable_sort l = stable_sort l'.
Proof.
  intros H P T. pose proof (Permutation_Forall P H) as H'. destruct (sort_ok l H) as (P1 & S1 & F1), (sort_ok l' H') as (P2 & S2 & F2).
  apply sorted_unique; auto.
  - exact (Permutation_Forall P1 H).
  - etransitivity; [symmetry; exact P1|]. etransitivity; [exact P|exact P2].
  - intros a Ha. pose proof (Permutation_in a (Permutation_sym P1) Ha) as I. rewrite F1 by assumption.
    rewrite F2 by (apply (Permutation_in a P); assumption).
    apply (same_lists a); [now apply filter_perm|]. apply Forall_forall. intros b Hb. apply filter_In in Hb as [Hb1 Hb2]. now apply T.
Qed.
End sort.

(** ** Conjugation in place *)
Fixpoint particle_ind' (Q : particle -> Prop) (H : forall p i m ds, Forall Q ds -> Q (Part p i m ds)) (a : particle) : Q a :=
  let '(Part p i m ds) := a in
  H p i m ds ((fix go (l : list particle) : Forall Q l := match l with [] => Forall_nil Q | d :: r => Forall_cons d (particle_ind' Q H d) (go r) end) ds).

Lemma conjThis_eq get p i m ds : conjThis get (Part p i m ds) = bind (conj_props get p) (fun p' => bind (conj_all get ds) (fun ds' => Ok (Part p' i m ds'))).
Proof.
  cbn [conjThis]. destruct (conj_props get p) as [p'| | |]; cbn [bind]; try reflexivity. f_equal.
  induction ds as [|d r IH]; [reflexivity|]. cbn [conj_all]. destruct (conjThis get d); cbn [bind]; try reflexivity. now rewrite IH.
Qed.
Lemma conj_all_ok get l l' : conj_all get l = Ok l' <-> Forall2 (fun d d' => conjThis get d = Ok d') l l'.
Proof.
  revert l'; induction l as [|d r IH]; intro l'; cbn [conj_all].
  - split; [injection 1 as <-; constructor|inversion 1; reflexivity].
  - split.
    + destruct (conjThis get d) as [d'| | |] eqn:E; cbn [bind]; try discriminate. destruct (conj_all get r) as [r'| | |] eqn:E2; cbn [bind]; try discriminate.
      injection 1 as <-. constructor; [exact E|]. now apply IH.
    + inversion 1; subst. rewrite H2; cbn [bind]. apply IH in H4. rewrite H4. reflexivity.
Qed.
Lemma conj_props_back get p : paired get p -> exists q, conj_props get p = Ok q /\ conj_props get q = Ok p /\ distinct q = distinct p /\ (distinct p = true -> pid q = (- pid p)%Z).
Proof.
  unfold conj_props, paired. destruct (distinct p) eqn:D; intro H.
  - destruct (H eq_refl) as (_ & G & q & Gq & Iq & Dq). exists q. rewrite Gq, Dq, Iq, Z.opp_involutive, G. auto.
  - exists p. rewrite D. repeat split; auto. discriminate.
Qed.
Lemma conj_back' get a : all_nodes (paired get) a -> exists a', conjThis get a = Ok a' /\ conjThis get a' = Ok a.
Proof.
  induction a as [p i m ds IH] using particle_ind'. intro H. inversion H as [? ? ? ? Hp Hd]; subst.
  destruct (conj_props_back get p Hp) as (q & E1 & E2 & _).
  assert (exists ds', conj_all get ds = Ok ds' /\ conj_all get ds' = Ok ds) as (ds' & D1 & D2).
  { clear - IH Hd. induction ds as [|d r IHr]; [exists []; split; reflexivity|].
    destruct (Forall_inv IH (Forall_inv Hd)) as (d' & C1 & C2). destruct (IHr (Forall_inv_tail IH) (Forall_inv_tail Hd)) as (r' & C3 & C4).
    exists (d' :: r'). cbn [conj_all]. rewrite C1, C2, C3, C4. split; reflexivity. }
  exists (Part q i m ds'). rewrite !conjThis_eq, E1, E2, D1, D2. split; reflexivity.
Qed.
Lemma Forall2_perm {A B} (R : A -> B -> Prop) l l' m' : Forall2 R l l' -> Permutation l' m' -> exists m, Permutation l m /\ Forall2 R m m'.
Proof.
  intros H P. revert l H; induction P; intros l0 H.
  - inversion H; subst. exists []. split; constructor.
  - inversion H; subst. destruct (IHP _ H4) as (m & P' & F). exists (x0 :: m). split; constructor; auto.
  - inversion H as [|x1 y1 k1 k1' R1 F1]; subst. inversion F1 as [|x2 y2 k2 k2' R2 F2]; subst. exists (x2 :: x1 :: k2). split; [apply perm_swap|]. repeat constructor; auto.
  - destruct (IHP1 _ H) as (m & P' & F). destruct (IHP2 _ F) as (m2 & P2' & F2). exists m2. split; [etransitivity; eauto|auto].
Qed.
Lemma Forall2_weak {A B} (R R' : A -> B -> Prop) l l' : (forall a b, R a b -> R' a b) -> Forall2 R l l' -> Forall2 R' l l'.
Proof. intros H F. induction F; constructor; auto. Qed.

Lemma sortDaughters_ok get a : all_nodes (paired get) a ->
  exists ds, sortDaughters get a = Ok (let '(Part p i m _) := a in Part p i m ds) /\ Permutation (daughters a) ds.
Proof.
  intro H. unfold sortDaughters. destruct a as [p i m ds]. cbn [props_of daughters]. destruct (Z.ltb (pid p) 0) eqn:N; [|exists (stable_sort ds); split; [reflexivity|apply sort_perm]].
  inversion H as [? ? ? ? Hp Hd]; subst. destruct (conj_props_back get p Hp) as (q & E1 & E2 & _).
  assert (exists ds', Forall2 (fun d d' => conjThis get d = Ok d' /\ conjThis get d' = Ok d) ds ds') as (ds' & F).
  { clear - Hd. induction Hd as [|d r Hd _ IH]; [exists []; constructor|]. destruct IH as (r' & F). destruct (conj_back' get d Hd) as (d' & C). exists (d' :: r'). now constructor. }
  assert (C : conj_all get ds = Ok ds') by (apply conj_all_ok; eapply Forall2_weak; [|exact F]; intros ? ? [Q _]; exact Q).
  destruct (Forall2_perm _ _ _ (stable_sort ds') F (sort_perm ds')) as (ds2 & P & F2).
  exists ds2. split; [|exact P]. rewrite conjThis_eq, E1, C. cbn [bind sorted_daughters]. rewrite conjThis_eq, E2. cbn [bind].
  assert (C2 : conj_all get (stable_sort ds') = Ok ds2).
  { apply conj_all_ok. clear - F2. induction F2; constructor; tauto. }
  rewrite C2. reflexivity.
Qed.

Lemma sortDaughters_conj get a a' : all_nodes (paired get) a -> (pid (props_of a) > 0)%Z -> distinct (props_of a) = true -> conjThis get a = Ok a' ->
  exists s, sortDaughters get a = Ok s /\ sortDaughters get a' = conjThis get s.
Proof.
  intros H P D C. exists (sorted_daughters a). unfold sortDaughters at 1. replace (Z.ltb (pid (props_of a)) 0) with false by (symmetry; apply Z.ltb_ge; lia).
  split; [reflexivity|]. destruct (conj_back' get a H) as (a2 & C1 & C2). assert (a2 = a') by congruence. subst a2.
  unfold sortDaughters. replace (Z.ltb (pid (props_of a')) 0) with true; [rewrite C2; reflexivity|].
  symmetry. apply Z.ltb_lt. destruct a as [p i m ds]. cbn [props_of] in *. inversion H as [? ? ? ? Hp Hd]; subst.
  destruct (conj_props_back get p Hp) as (q & E1 & E2 & _ & E3). rewrite conjThis_eq, E1 in C. cbn [bind] in C. destruct (conj_all get ds); try discriminate.
  cbn [bind] in C. injection C as <-. cbn [props_of]. rewrite (E3 D). lia.
Qed.
