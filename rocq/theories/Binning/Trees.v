(** Proofs about BinDT's trees. *)
From Verif.Binning Require Import Proofs.
From Verif.Binning Require Export Spec.
Local Open Scope nat_scope.

Lemma seq_nonempty d l : 0 < d -> Permutation l (seq 0 d) -> l <> [] /\ Forall (fun i => i < d) l.
Proof.
  intros H P. split.
  - intros ->. apply Permutation_nil in P. destruct d; [lia|discriminate].
  - apply Forall_forall. intros i Hi. rewrite P in Hi. apply in_seq in Hi. lia.
Qed.

Lemma nth_error_app3 {A} (l l' : list A) k x : nth_error (l ++ l') k = Some x ->
  (k < List.length l /\ nth_error l k = Some x) \/ (List.length l <= k /\ nth_error l' (k - List.length l) = Some x).
Proof.
  intro H. destruct (Nat.lt_ge_cases k (List.length l)) as [L|L]; [left|right]; (split; [exact L|]).
  - now rewrite nth_error_app1 in H. - now rewrite nth_error_app2 in H.
Qed.

Section Build.
  Variables (sort : nat -> list event -> list event) (by_variance : list event -> list nat) (c : conf).
  Hypotheses (Hsort : sorts_by sort) (Hvar : orders (dim c) by_variance) (Hc : usable c).

  Definition good_queue (q : list nat) : Prop := q <> [] /\ Forall (fun i => i < dim c) q.
  Lemma refresh_ok evts depth : 2 <= List.length evts ->
    exists q, refreshQueue by_variance c evts [] depth = Ok q /\ good_queue q.
  Proof.
    intro L. destruct Hc as (Hd & Hm & Ho). unfold refreshQueue.
    destruct (_ && _) eqn:E.
    - destruct (ordering c) as [|o os] eqn:Eo.
      + rewrite seq_length. rewrite (proj2 (Nat.leb_le _ _) (le_n _)). eexists; split; [reflexivity|].
        cbn [app]. rewrite firstn_all2 by (rewrite seq_length; lia). apply seq_nonempty; [exact Hd|reflexivity].
      + destruct Ho as [Ho|[Ho F]]; [discriminate|]. rewrite (proj2 (Nat.leb_le _ _) Ho). eexists; split; [reflexivity|].
        cbn [app]. split; [destruct (dim c); [lia|discriminate]|]. rewrite <- (firstn_skipn (dim c)) in F. now apply Forall_app in F.
    - rewrite (proj2 (Nat.eqb_neq (dim c) 0)) by lia. rewrite (proj2 (Nat.ltb_ge _ _) L). eexists; split; [reflexivity|].
      cbn [app]. apply seq_nonempty; [exact Hd|apply Hvar].
  Qed.

  Lemma make_ok : forall fuel evts queue depth ends, List.length evts < fuel -> good_queue queue -> complete (dim c) evts ->
    exists t new, makeNodes sort by_variance c fuel evts queue depth ends = Ok (t, ends ++ new) /\
      map fst (leaves t) = rev (seq (List.length ends) (List.length new)) /\
      Permutation (List.concat new) evts /\
      (minEvents c <= List.length evts -> Forall (fun l => minEvents c <= List.length l) new) /\
      (depth + List.length evts <= maxDepth c -> Forall (fun l => List.length l < 2 * minEvents c) new) /\
      (forall e, dim c <= List.length e -> exists r, lookup t e = Ok r /\ In r (leaves t)) /\
      (distinct (dim c) evts -> forall k held, nth_error new k = Some held -> forall e, In e held ->
        exists b, lookup t e = Ok (List.length ends + k, b)).
  Proof.
    destruct Hc as (Hd & Hm & _).
    induction fuel as [|f IH]; intros evts queue depth ends L Q C; [lia|].
    destruct Q as [Qn Qf]. destruct queue as [|index rest]; [congruence|]. inversion Qf as [|? ? Hi Qr]; subst.
    cbn [makeNodes]. destruct (_ || _) eqn:E.
    - exists (End (List.length ends) 999), [evts]. split; [reflexivity|]. split; [reflexivity|]. split; [cbn; now rewrite app_nil_r|].
      split; [intro; now constructor|]. split; [|split].
      + intro K. apply orb_true_iff in E as [E|E]; apply Nat.ltb_lt in E; [now repeat constructor|lia].
      + intros e _. eexists; split; [reflexivity|now left].
      + intros _ k held Hk e _. destruct k as [|[|k]]; try discriminate. exists 999. now rewrite Nat.add_0_r.
    - apply orb_false_iff in E as [E1 E2]. apply Nat.ltb_ge in E1, E2.
      destruct (split_ok sort Hsort (dim c) index evts Hi C ltac:(lia)) as (lo & hi & v & Es & P & Llo & Lhi & M & D & _).
      rewrite Es. cbn [bind]. pose proof (Permutation_length P) as PL. rewrite app_length in PL.
      assert (Eq : exists q, match rest with [] => refreshQueue by_variance c evts [] (S depth) | _ => Ok rest end = Ok q /\ good_queue q).
      { destruct rest as [|r rest]; [apply refresh_ok; lia|]. exists (r :: rest). split; [reflexivity|]. split; [discriminate|exact Qr]. }
      destruct Eq as (q & Eq & Gq). rewrite Eq. cbn [bind].
      assert (C' : complete (dim c) (lo ++ hi)) by (apply (complete_perm _ evts); [now symmetry|exact C]).
      apply complete_app in C' as [Clo Chi].
      destruct (IH lo q (S depth) ends ltac:(lia) Gq Clo) as (tl & n1 & B1 & F1 & P1 & M1 & U1 & K1 & T1). rewrite B1. cbn [bind].
      destruct (IH hi q (S depth) (ends ++ n1) ltac:(lia) Gq Chi) as (tr & n2 & B2 & F2 & P2 & M2 & U2 & K2 & T2). rewrite B2. cbn [bind].
      exists (Cut index v tr tl), (n1 ++ n2). split; [now rewrite app_assoc|].
      split; [|split; [|split; [|split; [|split]]]].
      + cbn [leaves]. rewrite map_app, F1, F2, !app_length, seq_app, rev_app_distr. reflexivity.
      + rewrite concat_app, P1, P2. exact P.
      + intro H. specialize (M (minEvents c) E1) as [Ma Mb]. apply Forall_app. split; [apply M1|apply M2]; assumption.
      + intro H. apply Forall_app. split; [apply U1|apply U2]; lia.
      + intros e He. cbn [lookup leaves]. destruct (nth_error e index) as [x|] eqn:Ex; [|apply nth_error_None in Ex; lia].
        destruct (Qlt_bool x v).
        * destruct (K1 e He) as (r & R1 & R2). exists r. split; [exact R1|]. apply in_or_app. now right.
        * destruct (K2 e He) as (r & R1 & R2). exists r. split; [exact R1|]. apply in_or_app. now left.
      + intros Dd k held Hk e He. specialize (D Dd) as [Dlo Dhi].
        assert (Dd' : distinct (dim c) (lo ++ hi)) by (apply (distinct_perm _ evts); [now symmetry|exact Dd]).
        apply distinct_app in Dd' as [D1 D2]. cbn [lookup].
        assert (in_new : forall n (ev : list event), Permutation (List.concat n) ev -> forall k, nth_error n k = Some held -> In e ev).
        { intros n ev Pn k' Hk'. rewrite <- Pn. apply in_concat. exists held. split; [now apply nth_error_In in Hk'|exact He]. }
        destruct (nth_error_app3 _ _ _ _ Hk) as [[Lk Hk']|[Lk Hk']].
        * assert (In e lo) by (eapply in_new; eauto).
          assert (He' : dim c <= List.length e) by (exact (proj1 (Forall_forall _ _) Clo e H)).
          rewrite (nth_error_nth' e 0%Q) by lia. fold (at_ e index).
          rewrite (proj2 (Qlt_bool_true _ _) (proj1 (Forall_forall _ _) Dlo e H)). apply (T1 D1 k held Hk' e He).
        * assert (In e hi) by (eapply in_new; eauto).
          assert (He' : dim c <= List.length e) by (exact (proj1 (Forall_forall _ _) Chi e H)).
          rewrite (nth_error_nth' e 0%Q) by lia. fold (at_ e index).
          rewrite (proj2 (Qlt_bool_false _ _) (proj1 (Forall_forall _ _) Dhi e H)).
          destruct (T2 D2 _ held Hk' e He) as (b & Eb). exists b. rewrite Eb. f_equal. f_equal. rewrite app_length. lia.
  Qed.

  Theorem build_ok fuel evts : List.length evts < fuel -> 2 <= List.length evts -> complete (dim c) evts ->
    exists t ends, build sort by_variance c fuel evts = Ok (t, ends) /\
      Permutation (map fst (leaves t)) (seq 0 (List.length ends)) /\
      Permutation (List.concat ends) evts /\
      (minEvents c <= List.length evts -> Forall (fun l => minEvents c <= List.length l) ends) /\
      (List.length evts <= maxDepth c -> Forall (fun l => List.length l < 2 * minEvents c) ends) /\
      (forall e, dim c <= List.length e -> exists v b, lookup t e = Ok (v, b) /\ v < List.length ends) /\
      (distinct (dim c) evts -> agrees (falls t) evts ends).
  Proof.
    intros Lf L C. unfold build. destruct (refresh_ok evts 0 L) as (q & Eq & Gq). rewrite Eq. cbn [bind].
    destruct (make_ok fuel evts q 0 [] Lf Gq C) as (t & new & B & F & P & M & U & K & T). cbn [app List.length] in *.
    exists t, new. split; [exact B|]. split; [rewrite F; now rewrite <- Permutation_rev|]. split; [exact P|]. split; [exact M|]. split; [exact U|]. split.
    - intros e He. destruct (K e He) as ([v b] & E1 & E2). exists v, b. split; [exact E1|].
      apply (in_map fst) in E2. rewrite F in E2. rewrite <- in_rev in E2. apply in_seq in E2. cbn in E2. lia.
    - intros D b held Hb. transitivity (filter (falls t b) (List.concat new)); [|now apply filter_perm].
      pose proof (concat_filter (falls t) new 0) as X. cbn [Nat.add] in X. rewrite (X) with (k := b) (l := held); [reflexivity| |exact Hb]. clear X.
      intros k l Hk x Hx b'. unfold falls. destruct (T D k l Hk x Hx) as (b0 & ->). reflexivity.
  Qed.
End Build.

(** ** Two samples *)
Section Build2.
  Variables (sort : nat -> list event -> list event) (by_variance : list event -> list nat) (c : conf).
  Variable cut : list event -> list event -> nat -> Q.
  Hypotheses (Hsort : sorts_by sort) (Hvar : orders (dim c) by_variance) (Hc : usable c).

  Lemma take_drop f l : take_while f l ++ drop_while f l = l.
  Proof. induction l as [|x l IH]; [reflexivity|]. cbn. destruct (f x); [cbn; now rewrite IH|reflexivity]. Qed.
  Lemma take_true f l : Forall (fun e => f e = true) (take_while f l).
  Proof. induction l as [|x l IH]; [constructor|]. cbn. destruct (f x) eqn:E; [now constructor|constructor]. Qed.
  Lemma drop_false (R : event -> event -> Prop) f l : StronglySorted R l -> (forall a b, R a b -> f a = false -> f b = false) ->
    Forall (fun e => f e = false) (drop_while f l).
  Proof.
    intros S M. induction S as [|x l S IH F]; [constructor|]. cbn. destruct (f x) eqn:E; [exact IH|].
    constructor; [exact E|]. eapply Forall_impl; [|exact F]. intros b Hb. now apply (M x b).
  Qed.
  Lemma below_cut i v l : sorts_by sort ->
    Forall (fun e => (at_ e i < v)%Q) (take_while (below i v) (sort i l)) /\ Forall (fun e => (v <= at_ e i)%Q) (drop_while (below i v) (sort i l)).
  Proof.
    intro H. destruct (H i l) as [_ So]. split.
    - eapply Forall_impl; [|apply take_true]. intros e. apply Qlt_bool_true.
    - eapply Forall_impl; [|eapply drop_false; [exact So|]]; [intros e; apply Qlt_bool_false|].
      intros a b R E. apply Qlt_bool_false in E. apply Qlt_bool_false. now apply Qle_trans with (at_ a i).
  Qed.

  Lemma make2_ok : forall fuel src tgt queue depth ends, List.length src < fuel -> good_queue c queue ->
    complete (dim c) src -> complete (dim c) tgt ->
    exists t new, makeNodes2 sort by_variance c cut fuel src tgt queue depth ends = Ok (t, ends ++ new) /\
      map fst (leaves t) = rev (seq (List.length ends) (List.length new)) /\
      Permutation (List.concat (map fst new)) src /\ Permutation (List.concat (map snd new)) tgt /\
      (src <> [] -> Forall (fun l => fst l <> []) new) /\
      (forall e, dim c <= List.length e -> exists r, lookup t e = Ok r /\ In r (leaves t)) /\
      (forall k s t', nth_error new k = Some (s, t') -> forall e, In e s \/ In e t' ->
        exists b, lookup t e = Ok (List.length ends + k, b)).
  Proof.
    destruct Hc as (Hd & Hm & _).
    induction fuel as [|f IH]; intros src tgt queue depth ends L Q Cs Ct; [lia|].
    destruct Q as [Qn Qf]. destruct queue as [|index rest]; [congruence|]. inversion Qf as [|? ? Hi Qr]; subst.
    cbn [makeNodes2]. cbv zeta.
    assert (stop : exists t new, Ok (End (List.length ends) 999, ends ++ [(src, tgt)]) = Ok (t, ends ++ new) /\
      map fst (leaves t) = rev (seq (List.length ends) (List.length new)) /\
      Permutation (List.concat (map fst new)) src /\ Permutation (List.concat (map snd new)) tgt /\
      (src <> [] -> Forall (fun l => fst l <> []) new) /\
      (forall e, dim c <= List.length e -> exists r, lookup t e = Ok r /\ In r (leaves t)) /\
      (forall k s t', nth_error new k = Some (s, t') -> forall e, In e s \/ In e t' ->
        exists b, lookup t e = Ok (List.length ends + k, b))).
    { exists (End (List.length ends) 999), [(src, tgt)]. split; [reflexivity|]. split; [reflexivity|]. cbn [map List.concat fst snd].
      rewrite !app_nil_r. split; [reflexivity|]. split; [reflexivity|]. split; [intro; now constructor|]. split.
      - intros e _. eexists; split; [reflexivity|now left].
      - intros k s t' Hk e _. destruct k as [|[|k]]; try discriminate. exists 999. now rewrite Nat.add_0_r. }
    destruct (_ || _ || _) eqn:E; [exact stop|].
    apply orb_false_iff in E as [E E2]. apply orb_false_iff in E as [_ E1]. apply Nat.ltb_ge in E1, E2.
    rewrite (readable_complete index (dim c) src Hi Cs), (readable_complete index (dim c) tgt Hi Ct). cbn [andb].
    set (v := cut (sort index src) (sort index tgt) index). clearbody v.
    destruct (below_cut index v src Hsort) as [Sl Sr]. destruct (below_cut index v tgt Hsort) as [Tl Tr].
    pose proof (take_drop (below index v) (sort index src)) as Ps. pose proof (take_drop (below index v) (sort index tgt)) as Pt.
    destruct (Hsort index src) as [Pss _]. destruct (Hsort index tgt) as [Ptt _].
    set (sl := take_while (below index v) (sort index src)) in *. set (sr := drop_while (below index v) (sort index src)) in *.
    set (tl := take_while (below index v) (sort index tgt)) in *. set (tr := drop_while (below index v) (sort index tgt)) in *.
    clearbody sl sr tl tr.
    destruct (_ || _) eqn:E; [exact stop|]. clear stop.
    apply orb_false_iff in E as [El Er]. apply Nat.eqb_neq in El, Er.
    assert (P1 : Permutation (sl ++ sr) src) by now rewrite Ps. assert (P2 : Permutation (tl ++ tr) tgt) by now rewrite Pt.
    pose proof (Permutation_length P1) as PL. rewrite app_length in PL.
    assert (Cs' : complete (dim c) (sl ++ sr)) by (apply (complete_perm _ src); [now symmetry|exact Cs]). apply complete_app in Cs' as [Csl Csr].
    assert (Ct' : complete (dim c) (tl ++ tr)) by (apply (complete_perm _ tgt); [now symmetry|exact Ct]). apply complete_app in Ct' as [Ctl Ctr].
    assert (Eq : exists q, match rest with [] => refreshQueue by_variance c (sort index src) [] (S depth) | _ => Ok rest end = Ok q /\ good_queue c q).
    { destruct rest as [|r rest]; [apply refresh_ok; try assumption; rewrite (Permutation_length Pss); lia|]. exists (r :: rest). split; [reflexivity|]. split; [discriminate|exact Qr]. }
    destruct Eq as (q & Eq & Gq). rewrite Eq. cbn [bind].
    destruct (IH sl tl q (S depth) ends ltac:(lia) Gq Csl Ctl) as (a & n1 & B1 & F1 & A1 & A1' & N1 & K1 & T1). rewrite B1. cbn [bind].
    destruct (IH sr tr q (S depth) (ends ++ n1) ltac:(lia) Gq Csr Ctr) as (b & n2 & B2 & F2 & A2 & A2' & N2 & K2 & T2). rewrite B2. cbn [bind].
    exists (Cut index v b a), (n1 ++ n2). split; [now rewrite app_assoc|].
    split; [|split; [|split; [|split; [|split]]]].
    - cbn [leaves]. rewrite map_app, F1, F2, !app_length, seq_app, rev_app_distr. reflexivity.
    - rewrite map_app, concat_app, A1, A2. exact P1.
    - rewrite map_app, concat_app, A1', A2'. exact P2.
    - intros _. apply Forall_app. split; [apply N1|apply N2]; intros ->; cbn in *; congruence.
    - intros e He. cbn [lookup leaves]. destruct (nth_error e index) as [x|] eqn:Ex; [|apply nth_error_None in Ex; lia].
      destruct (Qlt_bool x v).
      + destruct (K1 e He) as (r & R1 & R2). exists r. split; [exact R1|]. apply in_or_app. now right.
      + destruct (K2 e He) as (r & R1 & R2). exists r. split; [exact R1|]. apply in_or_app. now left.
    - intros k s t' Hk e He. cbn [lookup].
      assert (in_new : forall n (ev : list event) (g : list event * list event -> list event), Permutation (List.concat (map g n)) ev ->
        forall k, nth_error n k = Some (s, t') -> In e (g (s, t')) -> In e ev).
      { intros n ev g Pn k' Hk' Hg. rewrite <- Pn. apply in_concat. exists (g (s, t')). split; [|exact Hg]. apply in_map. now apply nth_error_In in Hk'. }
      destruct (nth_error_app3 _ _ _ _ Hk) as [[Lk Hk']|[Lk Hk']].
      + assert (X : dim c <= List.length e /\ (at_ e index < v)%Q).
        { destruct He as [He|He].
          - assert (In e sl) by (apply (in_new n1 sl fst A1 k Hk' He)). split; [exact (proj1 (Forall_forall _ _) Csl e H)|exact (proj1 (Forall_forall _ _) Sl e H)].
          - assert (In e tl) by (apply (in_new n1 tl snd A1' k Hk' He)). split; [exact (proj1 (Forall_forall _ _) Ctl e H)|exact (proj1 (Forall_forall _ _) Tl e H)]. }
        destruct X as [He' X]. rewrite (nth_error_nth' e 0%Q) by lia. fold (at_ e index). rewrite (proj2 (Qlt_bool_true _ _) X). apply (T1 k s t' Hk' e He).
      + assert (X : dim c <= List.length e /\ (v <= at_ e index)%Q).
        { destruct He as [He|He].
          - assert (In e sr) by (apply (in_new n2 sr fst A2 _ Hk' He)). split; [exact (proj1 (Forall_forall _ _) Csr e H)|exact (proj1 (Forall_forall _ _) Sr e H)].
          - assert (In e tr) by (apply (in_new n2 tr snd A2' _ Hk' He)). split; [exact (proj1 (Forall_forall _ _) Ctr e H)|exact (proj1 (Forall_forall _ _) Tr e H)]. }
        destruct X as [He' X]. rewrite (nth_error_nth' e 0%Q) by lia. fold (at_ e index). rewrite (proj2 (Qlt_bool_false _ _) X).
        destruct (T2 _ s t' Hk' e He) as (b0 & Eb). exists b0. rewrite Eb. f_equal. f_equal. rewrite app_length. lia.
  Qed.

  Theorem build2_ok fuel src tgt : List.length src < fuel -> 2 <= List.length src -> complete (dim c) src -> complete (dim c) tgt ->
    exists t ends, build2 sort by_variance c cut fuel src tgt = Ok (t, ends) /\
      Permutation (map fst (leaves t)) (seq 0 (List.length ends)) /\
      Forall (fun l => fst l <> []) ends /\
      (forall e, dim c <= List.length e -> exists v b, lookup t e = Ok (v, b) /\ v < List.length ends) /\
      Permutation (List.concat (map fst ends)) src /\ Permutation (List.concat (map snd ends)) tgt /\
      agrees (falls t) src (map fst ends) /\ agrees (falls t) tgt (map snd ends).
  Proof.
    intros Lf L Cs Ct. unfold build2. destruct (refresh_ok by_variance c Hvar Hc src 0 L) as (q & Eq & Gq). rewrite Eq. cbn [bind].
    destruct (make2_ok fuel src tgt q 0 [] Lf Gq Cs Ct) as (t & new & B & F & P & P' & N & K & T). cbn [app List.length] in *.
    exists t, new. split; [exact B|]. split; [rewrite F; now rewrite <- Permutation_rev|].
    split; [apply N; intros ->; cbn in L; lia|]. split.
    { intros e He. destruct (K e He) as ([v b] & E1 & E2). exists v, b. split; [exact E1|].
      apply (in_map fst) in E2. rewrite F in E2. rewrite <- in_rev in E2. apply in_seq in E2. cbn in E2. lia. }
    split; [exact P|]. split; [exact P'|].
    assert (X : forall (g : list event * list event -> list event), (forall s u e, In e (g (s, u)) -> In e s \/ In e u) ->
      forall ev, Permutation (List.concat (map g new)) ev -> agrees (falls t) ev (map g new)).
    { intros g Hg ev Pn b held Hb. transitivity (filter (falls t b) (List.concat (map g new))); [|now apply filter_perm].
      pose proof (concat_filter (falls t) (map g new) 0) as X. cbn [Nat.add] in X. rewrite (X) with (k := b) (l := held); [reflexivity| |exact Hb]. clear X.
      intros k l Hk x Hx b'. rewrite nth_error_map in Hk. destruct (nth_error new k) as [[s u]|] eqn:E; [|discriminate].
      cbn [option_map] in Hk. injection Hk as <-. unfold falls. destruct (T k s u E x (Hg s u x Hx)) as (b0 & ->). reflexivity. }
    split; apply X; try assumption; cbn; tauto.
  Qed.
End Build2.
