From Verif.Common Require Import Prelude Writes.
From Verif.Store Require Import Model Proofs.
From Verif.Store Require Spec.
From Verif.Coherent Require Import Model Spec.
Local Open Scope nat_scope.

Lemma in_numbered {A} (l : list A) : forall i x, In (i, x) (numbered l) <-> nth_error l i = Some x.
Proof.
  unfold numbered. assert (G : forall k i x, In (i, x) (combine (seq k (List.length l)) l) <-> k <= i /\ nth_error l (i - k) = Some x).
  { induction l as [|y l IH]; intros k i x; [cbn; split; [intros []|intros [_ H]; destruct (i - k); discriminate]|].
    cbn [List.length seq combine In]. rewrite IH. split.
    - intros [H|[H1 H2]]; [injection H as -> ->; split; [lia|now rewrite Nat.sub_diag]|]. split; [lia|].
      replace (i - k) with (S (i - S k)) by lia. exact H2.
    - intros [H1 H2]. destruct (Nat.eq_dec i k) as [->|]; [left; rewrite Nat.sub_diag in H2; cbn in H2; congruence|]. right. split; [lia|].
      replace (i - k) with (S (i - S k)) in H2 by lia. exact H2. }
  intros i x. rewrite G, Nat.sub_0_r. split; [tauto|split; [lia|assumption]].
Qed.
Lemma numbered_fst {A} (l : list A) : map fst (numbered l) = seq 0 (List.length l).
Proof.
  unfold numbered. assert (G : forall k, map fst (combine (seq k (List.length l)) l) = seq k (List.length l)); [|apply G].
  induction l as [|y l IH]; intro k; [reflexivity|]. cbn [List.length seq combine map fst]. now rewrite IH.
Qed.
Lemma fold_ext {A B} (f g : B -> A -> B) l : (forall b a, In a l -> f b a = g b a) -> forall b, fold_left f l b = fold_left g l b.
Proof. induction l as [|a l IH]; intros H b; [reflexivity|]. cbn [fold_left]. rewrite H by now left. apply IH. intros b' a' Ha. apply H. now right. Qed.
Lemma fold_map {A B D} (f : B -> A -> B) (g : D -> A) l : forall b, fold_left f (map g l) b = fold_left (fun b d => f b (g d)) l b.
Proof. induction l as [|d l IH]; intro b; [reflexivity|]. cbn [map fold_left]. apply IH. Qed.

Lemma f2_length {A B} (R : A -> B -> Prop) l l' : Forall2 R l l' -> List.length l = List.length l'.
Proof. induction 1; cbn [List.length]; congruence. Qed.
Lemma f2_nth {A B} (R : A -> B -> Prop) l l' : Forall2 R l l' -> forall k x y, nth_error l k = Some x -> nth_error l' k = Some y -> R x y.
Proof. induction 1 as [|a b l l' H _ IH]; intros [|k] x y E F; cbn [nth_error] in *; try discriminate; [congruence|eauto]. Qed.

(** ** Queued integrals *)
Section Queue.
  Variables (K : Type) (o : scalar K) (Ev : Type).
  Notation C := (cplx K).
  Notation integrator := (integrator K Ev).

  Lemma integrate_all_app (g : integrator) a b nm :
    integrate_all K o Ev g (a ++ b) nm = bind (integrate_all K o Ev g a nm) (integrate_all K o Ev g b).
  Proof.
    revert nm. induction a as [|[[r i] j] a IH]; intro nm; [reflexivity|]. cbn [app integrate_all].
    destruct (integral K o Ev g i j) as [v| | |]; cbn [bind]; try reflexivity. destruct (of_opt (set_at r v nm)); cbn [bind]; try reflexivity. apply IH.
  Qed.
  Lemma integrate_all_queue (g : integrator) q l nm : integrate_all K o Ev (with_queue K Ev g q) l nm = integrate_all K o Ev g l nm.
  Proof.
    revert nm. induction l as [|[[r i] j] l IH]; intro nm; [reflexivity|]. cbn [integrate_all]. unfold integral. cbn [with_queue i_weight i_cache i_norm].
    destruct (row_sum K o (i_weight g) (i_cache g) i j 0 (n_blocks (i_cache g)) (c0 o)) as [v| | |]; cbn [bind]; try reflexivity.
    destruct (of_opt (set_at r (cdivr o v (i_norm g)) nm)); cbn [bind]; try reflexivity. apply IH.
  Qed.
  Lemma wq_id (g : integrator) : with_queue K Ev g (queue g) = g.
  Proof. now destruct g. Qed.
  Lemma wq_wq (g : integrator) a b : with_queue K Ev (with_queue K Ev g a) b = with_queue K Ev g b.
  Proof. reflexivity. Qed.

  (** Queueing and flushing computes the integrals waiting and those requested, each once and in order. *)
  Lemma queue_flush batch : forall rs (g : integrator) nm, List.length (queue g) < batch ->
    bind (queue_all K o Ev batch rs g nm) (fun x => flush K o Ev (fst x) (snd x)) =
    bind (integrate_all K o Ev g (queue g ++ rs) nm) (fun n => Ok (with_queue K Ev g [], n)).
  Proof.
    induction rs as [|[[r i] j] rs IH]; intros g nm L.
    - cbn [queue_all bind fst snd]. rewrite app_nil_r. unfold flush, integrate_block. destruct (queue g) eqn:Q; [cbn [integrate_all bind]; rewrite <- Q, wq_id; reflexivity|].
      reflexivity.
    - cbn [queue_all]. unfold queue_integral. destruct (Nat.leb_spec batch (List.length (queue g))); [lia|].
      cbn [with_queue queue]. destruct (Nat.eqb_spec (List.length (queue g ++ [(r, i, j)])) batch) as [E|E].
      + unfold integrate_block. cbn [queue with_queue]. rewrite integrate_all_queue.
        assert (A : queue g ++ (r, i, j) :: rs = (queue g ++ [(r, i, j)]) ++ rs) by (rewrite <- app_assoc; reflexivity).
        rewrite A, (integrate_all_app g (queue g ++ [(r, i, j)]) rs). destruct (integrate_all K o Ev g (queue g ++ [(r, i, j)]) nm) as [n| | |]; cbn [bind]; try reflexivity.
        cbn [fst snd]. rewrite IH by (cbn [with_queue queue List.length]; lia). cbn [with_queue queue app].
        rewrite !integrate_all_queue. reflexivity.
      + rewrite app_length in E. cbn [List.length] in E. cbn [bind fst snd].
        rewrite IH by (cbn [with_queue queue]; rewrite app_length; cbn [List.length]; lia). cbn [with_queue queue]. rewrite <- app_assoc. cbn [app].
        rewrite !integrate_all_queue. reflexivity.
  Qed.

  Lemma integrate_all_ok (g : integrator) (F : nat -> C) : forall q nm,
    (forall r i j, In (r, i, j) q -> integral K o Ev g i j = Ok (F r) /\ r < List.length nm) ->
    exists nm', integrate_all K o Ev g q nm = Ok nm' /\ List.length nm' = List.length nm /\
      forall r, nth_error nm' r = if existsb (fun x => fst (fst x) =? r) q then Some (F r) else nth_error nm r.
  Proof.
    induction q as [|[[r i] j] q IH]; intros nm H; [exists nm; split; [reflexivity|split; [reflexivity|]]; reflexivity|].
    destruct (H r i j (or_introl eq_refl)) as [E L]. cbn [integrate_all]. rewrite E. cbn [bind].
    destruct (set_at_Some r (F r) nm L) as (nm1 & -> & L1 & N1). cbn [of_opt bind].
    destruct (IH nm1) as (nm' & -> & L' & N'). { intros r' i' j' Hi. rewrite L1. apply (H r' i' j'). now right. }
    exists nm'. split; [reflexivity|]. split; [congruence|]. intro k. rewrite N'. cbn [existsb fst].
    destruct (existsb (fun x => fst (fst x) =? k) q); [now rewrite orb_true_r|]. rewrite orb_false_r, N1.
    rewrite (Nat.eqb_sym k r). destruct (Nat.eqb_spec r k) as [->|]; reflexivity.
  Qed.
End Queue.

(** ** The coherent sum *)
Section Sum.
  Variables (K : Type) (o : scalar K) (Ev : Type) (wt : Ev -> K) (V : Type) (veqb : V -> V -> bool) (P : Type).
  Variable veqb_spec : forall a b, reflect (a = b) (veqb a b).
  Notation C := (cplx K).
  Notation element := (element K Ev V P).
  Notation me := (me K Ev V P).
  Notation csum := (csum K Ev V P).

  Lemma set_external_ok v a l c : a < List.length l -> exists l' c', set_external V veqb v a (l, c) = Ok (l', c') /\ List.length l' = List.length l /\
    (forall k, nth_error l' k = if k =? a then Some v else nth_error l k) /\ (c = true -> c' = true) /\ (c' = false -> l' = l).
  Proof.
    intro H. unfold set_external. cbn [fst]. destruct (nth_error l a) as [old|] eqn:E; [|apply nth_error_None in E; lia]. cbn [of_opt bind].
    destruct (veqb_spec old v) as [->|Ne].
    - exists l, c. split; [reflexivity|]. split; [reflexivity|]. split; [|auto]. intro k. destruct (Nat.eqb_spec k a) as [->|]; auto.
    - destruct (set_at_Some a v l H) as (l' & -> & L & N). cbn [of_opt bind]. exists l', true. split; [reflexivity|]. split; [assumption|].
      split; [assumption|]. split; [auto|discriminate].
  Qed.
  Lemma transfer_ok p : forall (src : list (nat * (P -> V))) l c, (forall a f, In (a, f) src -> a < List.length l) ->
    exists l' c', transfer V veqb (map (fun t => (fst t, snd t p)) src) (l, c) = Ok (l', c') /\ List.length l' = List.length l /\
    (forall k, k < List.length l -> nth_error l' k = match last_source V P k src with Some f => Some (f p) | None => nth_error l k end) /\
    (c = true -> c' = true) /\ (c' = false -> l' = l).
  Proof.
    induction src as [|[a f] src IH]; intros l c H.
    - exists l, c. split; [reflexivity|]. split; [reflexivity|]. split; [reflexivity|]. auto.
    - cbn [map fst snd transfer]. destruct (set_external_ok (f p) a l c (H a f (or_introl eq_refl))) as (l1 & c1 & -> & L1 & N1 & T1 & F1). cbn [bind].
      destruct (IH l1 c1) as (l' & c' & -> & L' & N' & T' & F'). { intros b h Hb. rewrite L1. apply (H b h). now right. }
      exists l', c'. split; [reflexivity|]. split; [congruence|]. split; [|split; [auto|]].
      + intros k Hk. rewrite N' by lia. cbn [last_source]. destruct (last_source V P k src); [reflexivity|]. rewrite N1, (Nat.eqb_sym a k).
        destruct (k =? a); reflexivity.
      + intro Hc. rewrite (F' Hc). apply F1. destruct c1; [now rewrite T' in Hc|reflexivity].
  Qed.

  Lemma values_from_nth p e l : forall a k, nth_error (values_from K Ev V P p e a l) k =
    match nth_error l k with Some v => Some (value_at K Ev V P p e (a + k) v) | None => None end.
  Proof.
    induction l as [|v l IH]; intros a [|k]; cbn [values_from nth_error]; [reflexivity|reflexivity|now rewrite Nat.add_0_r|].
    rewrite IH. destruct (nth_error l k); [|reflexivity]. do 2 f_equal. lia.
  Qed.

  Variable els : list (element * list V).
  Hypothesis ok : sound els.

  (** *** Registration *)
  Definition registered (s : store C) : Prop :=
    n_fields s = List.length els /\ forall k x, nth_error els k = Some x -> lookup (name (fst x)) (names s) = Some [k].
  Definition clean (s : store C) : Prop := (names s = [] /\ n_fields s = 0) \/ registered s.
  Definition reg (evts : list Ev) (s : store C) : Prop := registered s /\ sized C s /\ n_blocks s = List.length evts.

  Lemma functors_els (l : list me) : map elem l = map fst els -> functors K Ev V P l = map (fun x => (name (fst x), 1)) els.
  Proof.
    intro H. unfold functors. rewrite <- (map_map elem (fun e => (name e, 1))), H, map_map. reflexivity.
  Qed.
  Lemma add_registered_id fs : forall s, (forall f, In f fs -> lookup (fst f) (names s) <> None) ->
    fold_left (fun s f => add_functor C (fst f) (snd f) s) fs s = s.
  Proof.
    induction fs as [|[n k] fs IH]; intros s H; [reflexivity|]. cbn [fold_left fst snd].
    assert (E : add_functor C n k s = s). { unfold add_functor. specialize (H (n, k) (or_introl eq_refl)). cbn [fst] in H. destruct (lookup n (names s)); congruence. }
    rewrite E. apply IH. intros f Hf. apply H. now right.
  Qed.
  Lemma register_new : forall l s, NoDup (map (fun x : element * list V => name (fst x)) l) -> (forall x, In x l -> lookup (name (fst x)) (names s) = None) ->
    let s' := fold_left (fun s f => add_functor C (fst f) (snd f) s) (map (fun x => (name (fst x), 1)) l) s in
    n_fields s' = n_fields s + List.length l /\ (forall n v, lookup n (names s) = Some v -> lookup n (names s') = Some v) /\
    forall k x, nth_error l k = Some x -> lookup (name (fst x)) (names s') = Some [n_fields s + k].
  Proof.
    induction l as [|x l IH]; intros s ND H; cbn zeta; cbn [map fold_left fst snd List.length].
    - split; [lia|]. split; [auto|]. intros k x E. destruct k; discriminate.
    - cbn [map] in ND. inversion ND as [|? ? Nx ND']; subst.
      assert (E : add_functor C (name (fst x)) 1 s = Store (n_entries s) (n_blocks s) (n_fields s + 1) (cells s) ((name (fst x), [n_fields s]) :: names s)).
      { unfold add_functor. rewrite H by now left. reflexivity. }
      rewrite E. set (s1 := Store _ _ _ _ _). destruct (IH s1 ND') as (A & B & D).
      { intros y Hy. subst s1. cbn [names lookup]. destruct (str_eqb_spec (name (fst x)) (name (fst y))) as [Eq|]; [|apply H; now right].
        exfalso. apply Nx. rewrite Eq. now apply (in_map (fun x : element * list V => name (fst x))). }
      split; [rewrite A; subst s1; cbn [n_fields]; lia|]. split.
      + intros n v Hn. apply B. subst s1. cbn [names lookup]. destruct (str_eqb_spec (name (fst x)) n) as [Eq|]; [|assumption].
        rewrite <- Eq, H in Hn by now left. discriminate.
      + intros [|k] y Hk; [injection Hk as <-|].
        * rewrite Nat.add_0_r. apply B. subst s1. cbn [names lookup]. destruct (str_eqb_spec (name (fst x)) (name (fst x))); congruence.
        * rewrite (D k y Hk). subst s1. cbn [n_fields]. do 2 f_equal. lia.
  Qed.
  Lemma blocks1 n : (N.of_nat n < 4294967296)%N -> blocks 1 n = n.
  Proof.
    intro H. unfold blocks. destruct (Nat.eqb_spec n 0) as [->|]; [reflexivity|]. rewrite Nat.div_1_r. replace (1 + (n - 1)) with n by lia. now apply unsigned_small.
  Qed.
  Lemma allocate_reg s (evts : list Ev) (l : list me) : map elem l = map fst els -> clean s -> (N.of_nat (List.length evts) < 4294967296)%N ->
    reg evts (allocate C (c0 o) 1 (List.length evts) (functors K Ev V P l) s).
  Proof.
    intros Hl Cl Hs. unfold allocate. rewrite functors_els by assumption.
    assert (R : registered (fold_left (fun s f => add_functor C (fst f) (snd f) s) (map (fun x => (name (fst x), 1)) els) s)).
    { destruct Cl as [[N0 F0]|R].
      - destruct (register_new els s (proj1 ok)) as (A & _ & D). { intros x _. now rewrite N0. }
        split; [rewrite A, F0; reflexivity|]. intros k x Hk. rewrite (D k x Hk), F0. reflexivity.
      - rewrite add_registered_id; [assumption|]. intros f Hf. apply in_map_iff in Hf. destruct Hf as (x & <- & Hx). cbn [fst].
        apply In_nth_error in Hx. destruct Hx as (k & Hk). rewrite (proj2 R k x Hk). discriminate. }
    set (s1 := fold_left _ _ _) in *. unfold reg, resize. cbn [n_fields names n_blocks]. split; [exact R|]. rewrite blocks1 by assumption. split; [|reflexivity].
    unfold sized. cbn [cells n_blocks n_fields]. apply vresize_length.
  Qed.

  Definition rows (al : layout) (evts : list Ev) (s : store C) (k : nat) (f : Ev -> C) : Prop :=
    forall e x, nth_error evts e = Some x -> read C al s e k = Ok (f x).

  Lemma update_store_ok al (m : me) x k evts s : elem m = fst x -> nth_error els k = Some x -> reg evts s ->
    exists s', update_store K Ev V P al m evts s = Ok s' /\ reg evts s' /\ rows al evts s' k (amp (elem m) (ext m)) /\
      forall k' f, k' < List.length els -> k' <> k -> rows al evts s k' f -> rows al evts s' k' f.
  Proof.
    intros Ee Hk ((Rf & Rl) & Sz & Nb). unfold update_store, update. rewrite Ee, (Rl k x Hk). cbn [of_opt bind].
    assert (Lk : k < List.length els) by (apply nth_error_Some; congruence).
    set (fcn := fun e => if e <? List.length evts then values K Ev V P m evts e else [c0 o]).
    assert (E : forall l s0, (forall e, In e l -> e < List.length evts) -> update_loop C al l (values K Ev V P m evts) [k] s0 = update_loop C al l fcn [k] s0).
    { induction l as [|e l IH]; intros s0 H; [reflexivity|]. cbn [update_loop]. unfold fcn at 1.
      destruct (Nat.ltb_spec e (List.length evts)) as [_|Hl]; [|specialize (H e (or_introl eq_refl)); lia].
      destruct (store_item C al e [k] (values K Ev V P m evts e) s0); cbn [bind]; try reflexivity. apply IH. intros e' He'. apply H. now right. }
    assert (Sq : forall e, In e (seq 0 (List.length evts)) -> e < List.length evts) by (intros e He; apply in_seq in He; lia).
    rewrite (E _ _ Sq).
    destruct (update_loop_ok C al fcn [k] ltac:(constructor; [intros []|constructor])) with (evts := seq 0 (List.length evts)) (s := s)
      as (s' & -> & Sz' & Nb' & Nf' & Nm' & W & U).
    - intro e. unfold fcn. destruct (Nat.ltb_spec e (List.length evts)); [|reflexivity]. unfold values.
      destruct (nth_error evts e) eqn:Ev'; [reflexivity|]. apply nth_error_None in Ev'. lia.
    - assumption.
    - intros e He. rewrite Nb. now apply Sq.
    - intros g [<-|[]]. rewrite Rf. assumption.
    - exists s'. split; [reflexivity|]. split; [|split].
      + split; [split; [congruence|]|split; [assumption|congruence]]. intros k' x' Hk'. rewrite Nm'. now apply Rl.
      + intros e y Hy. assert (He : e < List.length evts) by (apply nth_error_Some; congruence).
        apply (W e 0 k); [apply in_seq; lia|reflexivity|]. unfold fcn. destruct (Nat.ltb_spec e (List.length evts)); [|lia]. unfold values. rewrite Hy, Ee. reflexivity.
      + intros k' f Lk' Ne H e y Hy. assert (He : e < List.length evts) by (apply nth_error_Some; congruence).
        rewrite U; [now apply H|lia|lia|]. right. intros [->|[]]. congruence.
  Qed.

  (** *** The loop of prepare *)
  Definition orows al (ev : option (list Ev)) s k f := match ev with Some evts => rows al evts s k f | None => True end.
  Definition oreg (ev : option (list Ev)) s := match ev with Some evts => reg evts s | None => clean s end.
  (** The parameters that no source writes still have their initial values. *)
  Definition kept (x : element * list V) (m : me) : Prop :=
    elem m = fst x /\ List.length (ext m) = List.length (snd x) /\
    forall a, a < List.length (snd x) -> last_source V P a (sources (fst x)) = None -> nth_error (ext m) a = nth_error (snd x) a.
  Definition current p (x : element * list V) (m : me) : Prop :=
    elem m = fst x /\ ext m = values_from K Ev V P p (fst x) 0 (snd x) /\ coef m = coupling (fst x) p.

  Lemma current_kept p x m : current p x m -> kept x m.
  Proof.
    intros (E & X & _). split; [assumption|]. split.
    - rewrite X. clear. generalize 0. induction (snd x) as [|v l IH]; intro a; [reflexivity|]. cbn [values_from List.length]. now rewrite IH.
    - intros a La N. rewrite X, values_from_nth. destruct (nth_error (snd x) a); [|reflexivity]. unfold value_at. cbn [Nat.add]. now rewrite N.
  Qed.
  Lemma transfer_me_ok p x m : In x els -> kept x m -> exists m', transfer_me K Ev V veqb P p m = Ok m' /\ current p x m' /\ todo m' = todo m /\
    (changed m = true -> changed m' = true) /\ (changed m' = false -> ext m' = ext m).
  Proof.
    intros Hx (Ee & Le & Ke). unfold transfer_me. rewrite Ee.
    destruct (transfer_ok p (sources (fst x)) (ext m) (changed m)) as (l' & c' & -> & L' & N' & T' & F').
    { intros a f Ha. rewrite Le. now apply (proj2 ok x a f). }
    cbn [bind fst snd]. eexists. split; [reflexivity|]. unfold current. cbn [elem ext coef todo changed]. split; [|auto].
    split; [reflexivity|]. split; [|reflexivity]. apply nth_error_ext_eq. intro a. rewrite values_from_nth. cbn [Nat.add].
    destruct (Nat.lt_ge_cases a (List.length (snd x))) as [La|Ga].
    - rewrite N' by lia. unfold value_at. destruct (nth_error (snd x) a) as [v|] eqn:Ea; [|apply nth_error_None in Ea; lia].
      destruct (last_source V P a (sources (fst x))) eqn:Es; [reflexivity|]. rewrite (Ke a La Es). exact Ea.
    - rewrite (proj2 (nth_error_None l' a)) by lia. now rewrite (proj2 (nth_error_None (snd x) a)) by lia.
  Qed.

  Lemma prepare_loop_ok p calls ev : forall l k c g, Forall2 kept (skipn k els) l -> oreg ev c -> oreg (i_events g) (i_cache g) ->
    (calls <> 0 -> forall j m, nth_error l j = Some m -> changed m = false /\ orows AoS ev c (k + j) (amp (elem m) (ext m)) /\
                                                   orows SoA (i_events g) (i_cache g) (k + j) (amp (elem m) (ext m))) ->
    (forall j m, nth_error l j = Some m -> todo m = false) ->
    exists l' c' g', prepare_loop K Ev V veqb P p calls ev l c g = Ok (l', c', g') /\
      Forall2 (current p) (skipn k els) l' /\ oreg ev c' /\ oreg (i_events g) (i_cache g') /\
      i_events g' = i_events g /\ i_weight g' = i_weight g /\ i_norm g' = i_norm g /\ queue g' = queue g /\
      (forall j f, j < k -> j < List.length els -> orows AoS ev c j f -> orows AoS ev c' j f) /\
      (forall j f, j < k -> j < List.length els -> orows SoA (i_events g) (i_cache g) j f -> orows SoA (i_events g) (i_cache g') j f) /\
      (forall j m', nth_error l' j = Some m' -> changed m' = false /\ orows AoS ev c' (k + j) (amp (elem m') (ext m')) /\
                    orows SoA (i_events g) (i_cache g') (k + j) (amp (elem m') (ext m'))) /\
      (forall j m', nth_error l' j = Some m' -> todo m' = false -> calls <> 0 /\ exists m, nth_error l j = Some m /\ ext m' = ext m).
  Proof.
    induction l as [|m l IH]; intros k c g Hk Rc Rg Fr Td.
    - exists [], c, g. inversion Hk; subst. cbn [prepare_loop]. split; [reflexivity|]. split; [constructor|].
      do 6 (split; [auto|]). split; [auto|]. split; [auto|]. split; intros [|j] m' H; discriminate.
    - destruct (skipn k els) as [|x xs] eqn:Sk; [inversion Hk|]. inversion Hk as [|? ? ? ? Kx Kl]; subst.
      assert (Ex : nth_error els k = Some x).
      { clear - Sk. revert k Sk. induction els as [|y t IHt]; intros [|k] Sk; cbn [skipn nth_error] in *; try discriminate; [congruence|]. now apply IHt. }
      assert (Lk : k < List.length els) by (apply nth_error_Some; congruence).
      assert (Sk' : skipn (S k) els = xs).
      { clear - Sk. revert k Sk. induction els as [|y t IHt]; intros [|k] Sk; cbn [skipn] in *; try discriminate; [congruence|]. now apply IHt. }
      destruct (transfer_me_ok p x m (nth_error_In _ _ Ex) Kx) as (m1 & T1 & Cur & Td1 & Ch1 & Ex1).
      cbn [prepare_loop]. rewrite T1. cbn [bind]. rewrite <- Sk' in Kl.
      destruct (negb (calls =? 0) && negb (changed m1)) eqn:Sc.
      + apply andb_true_iff in Sc. destruct Sc as [C0 C1]. apply negb_true_iff in C0, C1. apply Nat.eqb_neq in C0.
        destruct (IH (S k) c g Kl Rc Rg) as (l' & c' & g' & -> & Cu & Rc' & Rg' & Ie & Iw & In_ & Iq & Pd & Pm & Fr' & Td').
        { intros _ j m' Hj. specialize (Fr C0 (S j) m' Hj). now rewrite <- plus_n_Sm in Fr. }
        { intros j m' Hj. now apply (Td (S j)). }
        cbn [bind]. exists (m1 :: l'), c', g'. split; [reflexivity|]. rewrite Sk' in Cu. split; [now constructor|]. do 6 (split; [assumption|]).
        split; [intros j f Hj; apply Pd; lia|]. split; [intros j f Hj; apply Pm; lia|]. split.
        * intros [|j] m' Hj; cbn [nth_error] in Hj.
          -- injection Hj as <-. specialize (Fr C0 0 m eq_refl). rewrite Nat.add_0_r in *. destruct Fr as (F1 & F2 & F3).
             destruct Cur as (Q1 & Q2 & Q3). rewrite Q1, (Ex1 C1). destruct Kx as (K1 & _). rewrite K1 in F2, F3.
             split; [assumption|]. split; [apply Pd|apply Pm]; auto; lia.
          -- rewrite <- plus_n_Sm. now apply Fr'.
        * intros [|j] m' Hj Ht; cbn [nth_error] in Hj; [|now apply Td'].
          injection Hj as <-. split; [assumption|]. exists m. split; [reflexivity|now apply Ex1].
      + (* updated *)
        destruct Cur as (Q1 & Q2 & Q3).
        assert (U1 : exists c1, match ev with Some evts => update_store K Ev V P AoS m1 evts c | None => Ok c end = Ok c1 /\ oreg ev c1 /\
                     orows AoS ev c1 k (amp (elem m1) (ext m1)) /\ forall j f, j < List.length els -> j <> k -> orows AoS ev c j f -> orows AoS ev c1 j f).
        { destruct ev as [evts|]; [|exists c; split; [reflexivity|]; split; [exact Rc|]; split; [exact I|]; auto].
          cbn [oreg orows] in *. apply (update_store_ok AoS m1 x k evts c Q1 Ex Rc). }
        destruct U1 as (c1 & -> & Rc1 & Fc1 & Uc1). cbn [bind].
        assert (U2 : exists g1, match i_events g with Some evts => bind (update_store K Ev V P SoA m1 evts (i_cache g)) (fun ic => Ok (Integ K Ev (i_events g) (i_weight g) ic (i_norm g) (queue g)))
                     | None => Ok g end = Ok g1 /\ oreg (i_events g) (i_cache g1) /\ i_events g1 = i_events g /\ i_weight g1 = i_weight g /\ i_norm g1 = i_norm g /\ queue g1 = queue g /\
                     orows SoA (i_events g) (i_cache g1) k (amp (elem m1) (ext m1)) /\ forall j f, j < List.length els -> j <> k -> orows SoA (i_events g) (i_cache g) j f -> orows SoA (i_events g) (i_cache g1) j f).
        { destruct (i_events g) as [evts|] eqn:Eg.
          - cbn [oreg orows] in *. destruct (update_store_ok SoA m1 x k evts (i_cache g) Q1 Ex Rg) as (s' & -> & R' & F' & U'). cbn [bind].
            eexists. split; [reflexivity|]. cbn [i_cache i_events i_weight i_norm queue]. auto 10.
          - exists g. rewrite Eg. split; [reflexivity|]. cbn [oreg orows] in *. auto 10. }
        destruct U2 as (g1 & -> & Rg1 & Ie1 & Iw1 & In1 & Iq1 & Fg1 & Ug1). cbn [bind]. rewrite <- Ie1 in Rg1, Fg1, Ug1.
        destruct (IH (S k) c1 g1 Kl Rc1 Rg1) as (l' & c' & g' & -> & Cu & Rc' & Rg' & Ie & Iw & In_ & Iq & Pd & Pm & Fr' & Td').
        { intros C0 j m' Hj. specialize (Fr C0 (S j) m' Hj). rewrite <- plus_n_Sm in Fr. destruct Fr as (A & B & D).
          assert (Lj : S k + j < List.length els).
          { apply f2_length in Kl. rewrite skipn_length in Kl. assert (j < List.length l) by (apply nth_error_Some; congruence). lia. }
          split; [assumption|]. split; [apply Uc1; [lia|lia|exact B]|]. rewrite Ie1 in *. apply Ug1; [lia|lia|exact D]. }
        { intros j m' Hj. now apply (Td (S j)). }
        cbn [bind]. eexists (_ :: l'), c', g'. split; [reflexivity|]. rewrite Sk' in Cu.
        split; [constructor; [|assumption]; unfold current; cbn [elem ext coef]; auto|]. split; [assumption|].
        rewrite Ie1 in Rg', Pm, Fr', Ug1, Fg1, Ie. split; [assumption|]. split; [congruence|]. split; [congruence|]. split; [congruence|]. split; [congruence|].
        split; [intros j f Hj Lj H; apply Pd; [lia|lia|]; apply Uc1; auto; lia|]. split; [intros j f Hj Lj H; apply Pm; [lia|lia|]; apply Ug1; auto; lia|]. split.
        * intros [|j] m' Hj; cbn [nth_error] in Hj.
          -- injection Hj as <-. cbn [changed elem ext]. rewrite Nat.add_0_r. split; [reflexivity|]. split; [apply Pd|apply Pm]; auto; lia.
          -- rewrite <- plus_n_Sm. now apply Fr'.
        * intros [|j] m' Hj Ht; cbn [nth_error] in Hj; [|now apply Td']. injection Hj as <-. discriminate.
  Qed.

  (** *** Integrals *)
  Notation average := (average K o Ev wt).
  Lemma skipn_nth {A} (l : list A) : forall k x, nth_error l k = Some x -> skipn k l = x :: skipn (S k) l.
  Proof. induction l as [|y l IH]; intros [|k] x H; cbn [nth_error] in H; try discriminate; [now injection H as ->|]. cbn [skipn]. now apply IH. Qed.
  Lemma row_sum_ok mc s i j a b : rows SoA mc s i a -> rows SoA mc s j b -> forall n k acc, k + n = List.length mc ->
    row_sum K o (map wt mc) s i j k n acc = Ok (bilinear K o Ev wt a b (skipn k mc) acc).
  Proof.
    intros Ra Rb. induction n as [|n IH]; intros k acc L; cbn [row_sum].
    - rewrite skipn_all2 by lia. reflexivity.
    - destruct (nth_error mc k) as [x|] eqn:E; [|apply nth_error_None in E; lia]. rewrite (Ra k x E), (Rb k x E). cbn [bind].
      rewrite nth_error_map, E. cbn [option_map of_opt bind]. rewrite IH by lia. rewrite (skipn_nth mc k x E). reflexivity.
  Qed.
  Lemma integral_ok mc g i j a b : i_weight g = map wt mc -> i_norm g = total_weight K o Ev wt mc -> reg mc (i_cache g) ->
    rows SoA mc (i_cache g) i a -> rows SoA mc (i_cache g) j b -> integral K o Ev g i j = Ok (average a b mc).
  Proof.
    intros W N (_ & _ & B) Ra Rb. unfold integral. rewrite W, N, B, (row_sum_ok mc _ i j a b Ra Rb _ 0) by reflexivity. reflexivity.
  Qed.
  Lemma in_requests todos r i j : In (r, i, j) (requests todos) <->
    i <= j /\ j < List.length todos /\ r = i * List.length todos + j /\ nth i todos false || nth j todos false = true.
  Proof.
    unfold requests. rewrite in_flat_map. split.
    - intros (i' & Hi & H). apply in_flat_map in H. destruct H as (j' & Hj & H). apply in_seq in Hi, Hj.
      destruct (nth i' todos false || nth j' todos false) eqn:T; [|destruct H]. destruct H as [H|[]]. injection H as <- <- <-. repeat split; try lia. assumption.
    - intros (H1 & H2 & -> & T). exists i. split; [apply in_seq; lia|]. apply in_flat_map. exists j. split; [apply in_seq; lia|]. rewrite T. now left.
  Qed.
  Lemma nth_map_todo (l : list me) k m : nth_error l k = Some m -> nth k (map (fun m : me => todo m) l) false = todo m.
  Proof. intro H. assert (E : nth_error (map (fun m : me => todo m) l) k = Some (todo m)) by (rewrite nth_error_map, H; reflexivity). now apply nth_error_nth. Qed.

  Definition integrals (nm : list C) (l : list me) (mc : list Ev) : Prop :=
    forall i j mi mj, i <= j -> nth_error l i = Some mi -> nth_error l j = Some mj ->
      nth_error nm (i * List.length l + j) = Some (average (amp (elem mi) (ext mi)) (amp (elem mj) (ext mj)) mc).

  Lemma update_norms_ok (l : list me) g nm mc : i_weight g = map wt mc -> i_norm g = total_weight K o Ev wt mc -> queue g = [] -> reg mc (i_cache g) ->
    (forall j m, nth_error l j = Some m -> rows SoA mc (i_cache g) j (amp (elem m) (ext m))) -> List.length nm = List.length l * List.length l ->
    (forall i j mi mj, i <= j -> nth_error l i = Some mi -> nth_error l j = Some mj -> todo mi = false -> todo mj = false ->
      nth_error nm (i * List.length l + j) = Some (average (amp (elem mi) (ext mi)) (amp (elem mj) (ext mj)) mc)) ->
    exists nm', update_norms K o Ev V P l g nm = bind (norm K o nm' (map (fun m : me => coef m) l)) (fun v => Ok (g, nm', v)) /\
      List.length nm' = List.length nm /\ integrals nm' l mc.
  Proof.
    intros W N Q R Rw Ln Old. unfold update_norms.
    set (n := List.length l) in *. set (rs := if existsb (fun m : me => todo m) l then requests (map (fun m : me => todo m) l) else []).
    assert (E0 : bind (if existsb (fun m : me => todo m) l then queue_all K o Ev unroll (requests (map (fun m : me => todo m) l)) g nm else Ok (g, nm))
                   (fun x => bind (flush K o Ev (fst x) (snd x)) (fun y => bind (norm K o (snd y) (map (fun m : me => coef m) l)) (fun v => Ok (fst y, snd y, v)))) =
                 bind (bind (queue_all K o Ev unroll rs g nm) (fun x => flush K o Ev (fst x) (snd x)))
                   (fun y => bind (norm K o (snd y) (map (fun m : me => coef m) l)) (fun v => Ok (fst y, snd y, v)))).
    { subst rs. destruct (existsb (fun m : me => todo m) l); [|reflexivity].
      destruct (queue_all K o Ev unroll (requests (map (fun m : me => todo m) l)) g nm); reflexivity. }
    assert (E1 := queue_flush K o Ev unroll rs g nm). rewrite Q in E1. specialize (E1 ltac:(unfold unroll; cbn; lia)). cbn [app] in E1. rewrite E1 in E0.
    assert (Wq : with_queue K Ev g [] = g) by (rewrite <- Q; apply wq_id). rewrite Wq in E0. clear E1.
    set (A := fun k => match nth_error l k with Some m => amp (elem m) (ext m) | None => fun _ : Ev => c0 o end).
    destruct (integrate_all_ok K o Ev g (fun r => average (A (r / n)) (A (r mod n)) mc) rs nm) as (nm' & Enm & L' & N').
    { intros r i j Hr. assert (H : In (r, i, j) (requests (map (fun m : me => todo m) l))) by (subst rs; destruct (existsb (fun m : me => todo m) l); [assumption|destruct Hr]).
      apply in_requests in H. rewrite map_length in H. fold n in H. destruct H as (H1 & H2 & -> & T).
      assert (D : (i * n + j) / n = i) by (rewrite Nat.div_add_l, Nat.div_small by lia; lia).
      assert (M : (i * n + j) mod n = j) by (rewrite Nat.add_comm, Nat.mod_add, Nat.mod_small by lia; reflexivity).
      rewrite D, M. split; [|nia]. unfold A. destruct (nth_error l i) as [mi|] eqn:Ei; [|apply nth_error_None in Ei; fold n in Ei; lia].
      destruct (nth_error l j) as [mj|] eqn:Ej; [|apply nth_error_None in Ej; fold n in Ej; lia].
      apply integral_ok; auto. }
    rewrite Enm in E0. cbn [bind fst snd] in E0. exists nm'. split; [exact E0|]. split; [assumption|]. intros i j mi mj Hij Hi Hj. fold n.
    assert (Hjn : j < n) by (apply nth_error_Some; congruence).
    assert (D : (i * n + j) / n = i) by (rewrite Nat.div_add_l, Nat.div_small by lia; lia).
    assert (M : (i * n + j) mod n = j) by (rewrite Nat.add_comm, Nat.mod_add, Nat.mod_small by lia; reflexivity).
    rewrite N', D, M. unfold A. rewrite Hi, Hj. destruct (existsb (fun x => fst (fst x) =? i * n + j) rs) eqn:Ex; [reflexivity|].
    destruct (todo mi || todo mj) eqn:T.
    - exfalso. assert (In (i * n + j, i, j) rs).
      { subst rs. destruct (existsb (fun m : me => todo m) l) eqn:Ea.
        - apply in_requests. rewrite map_length. fold n. repeat split; try lia. rewrite (nth_map_todo l i mi Hi), (nth_map_todo l j mj Hj). assumption.
        - apply orb_true_iff in T. assert (F : forall m, In m l -> todo m = false).
          { intros m Hm. destruct (todo m) eqn:Tm; [|reflexivity]. rewrite <- Ea. symmetry. apply existsb_exists. eauto. }
          rewrite (F mi), (F mj) in T; [destruct T; discriminate|now apply nth_error_In in Hj|now apply nth_error_In in Hi]. }
      rewrite <- not_true_iff_false in Ex. apply Ex, existsb_exists. exists (i * n + j, i, j). split; [assumption|]. cbn [fst]. apply Nat.eqb_refl.
    - apply orb_false_iff in T. destruct T. now apply (Old i j mi mj).
  Qed.

  Lemma sum_over_ok (f : nat -> res C) (F : nat -> C) : forall l acc, (forall x, In x l -> f x = Ok (F x)) ->
    sum_over K o l f acc = Ok (fold_left (fun a x => cadd o a (F x)) l acc).
  Proof. induction l as [|x l IH]; intros acc H; [reflexivity|]. cbn [sum_over fold_left]. rewrite H by now left. cbn [bind]. apply IH. intros y Hy. apply H. now right. Qed.
  Lemma double_sum_ok (f : nat -> nat -> res C) (F : nat -> nat -> C) js : forall is acc, (forall x y, In x is -> In y js -> f x y = Ok (F x y)) ->
    double_sum K o is js f acc = Ok (fold_left (fun a x => fold_left (fun a y => cadd o a (F x y)) js a) is acc).
  Proof.
    induction is as [|x is IH]; intros acc H; [reflexivity|]. cbn [double_sum fold_left]. rewrite (sum_over_ok (f x) (F x)) by (intros y Hy; apply H; [now left|assumption]).
    cbn [bind]. apply IH. intros y z Hy Hz. apply H; [now right|assumption].
  Qed.

  Lemma norm_ok p (l : list me) nm mc : Forall2 (current p) els l -> integrals nm l mc -> norm K o nm (map (fun m : me => coef m) l) = Ok (fresh_norm K o Ev wt V P p els mc).
  Proof.
    intros F H. assert (Ll : List.length l = List.length els) by (symmetry; now apply f2_length with (1 := F)).
    set (dflt := hd_error els). set (T := fun i j => match nth_error els i, nth_error els j with Some x, Some y => term K o Ev wt V P p mc (i, x) (j, y) | _, _ => c0 o end).
    unfold norm. rewrite map_length, Ll, (double_sum_ok _ T).
    - cbn [bind]. unfold fresh_norm. do 2 f_equal. rewrite <- (numbered_fst els), fold_map. apply fold_ext. intros a [i x] Hi. cbn [fst].
      rewrite fold_map. apply fold_ext. intros b [j y] Hj. cbn [fst]. unfold T. apply in_numbered in Hi, Hj. now rewrite Hi, Hj.
    - intros i j Hi Hj. apply in_seq in Hi, Hj. unfold T.
      destruct (nth_error els i) as [x|] eqn:Xi; [|apply nth_error_None in Xi; lia]. destruct (nth_error els j) as [y|] eqn:Xj; [|apply nth_error_None in Xj; lia].
      destruct (nth_error l i) as [mi|] eqn:Mi; [|apply nth_error_None in Mi; lia]. destruct (nth_error l j) as [mj|] eqn:Mj; [|apply nth_error_None in Mj; lia].
      destruct (f2_nth _ _ _ F i x mi Xi Mi) as (E1 & E2 & E3). destruct (f2_nth _ _ _ F j y mj Xj Mj) as (D1 & D2 & D3).
      unfold norm_term. rewrite !nth_error_map, Mi, Mj. cbn [option_map of_opt bind]. rewrite map_length. unfold norm_at. unfold term, fresh.
      destruct (Nat.ltb_spec j i).
      + rewrite (H j i mj mi ltac:(lia) Mj Mi). cbn [of_opt bind]. rewrite E1, E2, E3, D1, D2, D3. reflexivity.
      + rewrite (H i j mi mj ltac:(lia) Mi Mj). cbn [of_opt bind]. rewrite E1, E2, E3, D1, D2, D3. reflexivity.
  Qed.

  (** *** The invariant *)
  Definition inv (h : list (act Ev P)) (s : csum) : Prop :=
    Forall2 kept els (mes s) /\ events s = now_events h /\ i_events (integ s) = now_mc h /\ oreg (events s) (cache s) /\ clean (cache s) /\
    oreg (i_events (integ s)) (i_cache (integ s)) /\ queue (integ s) = [] /\ List.length (norms s) = List.length els * List.length els /\
    match i_events (integ s) with Some mc => i_weight (integ s) = map wt mc /\ i_norm (integ s) = total_weight K o Ev wt mc | None => True end /\
    (forall j m, nth_error (mes s) j = Some m -> todo m = false) /\
    (calls s <> 0 -> (forall j m, nth_error (mes s) j = Some m -> changed m = false /\ orows AoS (events s) (cache s) j (amp (elem m) (ext m)) /\
        orows SoA (i_events (integ s)) (i_cache (integ s)) j (amp (elem m) (ext m))) /\
      match i_events (integ s) with Some mc => integrals (norms s) (mes s) mc | None => True end).

  (** What [prepare] has to establish. *)
  Definition prepared p (h : list (act Ev P)) (s : csum) : Prop :=
    match now_events h with
    | Some evts => forall e x, nth_error evts e = Some x ->
        (forall k y, nth_error els k = Some y -> read C AoS (cache s) e k = Ok (fresh K Ev V P p y x)) /\
        get_val K o Ev V P s e = Ok (fresh_sum K o Ev V P p els x)
    | None => True end /\
    match now_mc h with
    | Some mc => (forall i j x y, i <= j -> nth_error els i = Some x -> nth_error els j = Some y ->
        nth_error (norms s) (i * List.length els + j) = Some (average (fresh K Ev V P p x) (fresh K Ev V P p y) mc)) /\
        m_norm s = fresh_norm K o Ev wt V P p els mc
    | None => True end.

  Lemma kept_elems l : Forall2 kept els l -> map elem l = map fst els.
  Proof. clear. induction 1 as [|x m xs l (E & _) _ IH]; [reflexivity|]. cbn [map]. now rewrite E, IH. Qed.

  Lemma prepare_ok p h s : inv h s -> exists s', prepare K o Ev V veqb P p s = Ok s' /\ inv (h ++ [Prepare]) s' /\ prepared p h s' /\ Forall2 (current p) els (mes s').
  Proof.
    intros (Km & Ee & Em & Rc & Cc & Rg & Q & Ln & Wn & Td & Fr). unfold prepare.
    destruct (prepare_loop_ok p (calls s) (events s) (mes s) 0 (cache s) (integ s)) as (l & c & g & -> & Cu & Rc' & Rg' & Ie & Iw & In_ & Iq & _ & _ & Fr' & Td');
      [exact Km|exact Rc|exact Rg|intros C0 j m Hj; exact (proj1 (Fr C0) j m Hj)|exact Td|].
    cbn [bind]. cbn [skipn] in Cu. assert (Ll : List.length l = List.length els) by (symmetry; now apply f2_length with (1 := Cu)).
    assert (Lm : List.length (mes s) = List.length els) by (symmetry; now apply f2_length with (1 := Km)).
    assert (U : exists nm v, match i_events g with Some _ => update_norms K o Ev V P l g (norms s) | None => Ok (g, norms s, m_norm s) end = Ok (g, nm, v) /\
               List.length nm = List.length els * List.length els /\
               match i_events g with Some mc => integrals nm l mc /\ v = fresh_norm K o Ev wt V P p els mc | None => True end).
    { rewrite Ie. destruct (i_events (integ s)) as [mc|] eqn:Eg; [|exists (norms s), (m_norm s); auto].
      destruct Wn as [W1 W2]. destruct (update_norms_ok l g (norms s) mc) as (nm & -> & L' & I').
      - congruence.
      - congruence.
      - congruence.
      - exact Rg'.
      - intros j m Hj. destruct (Fr' j m Hj) as (_ & _ & H). exact H.
      - congruence.
      - intros i j mi mj Hij Hi Hj Ti Tj. destruct (Td' i mi Hi Ti) as (C0 & mi0 & Oi & Xi). destruct (Td' j mj Hj Tj) as (_ & mj0 & Oj & Xj).
        destruct (Fr C0) as [_ FI]. specialize (FI i j mi0 mj0 Hij Oi Oj). rewrite Ll, <- Lm, FI. rewrite Xi, Xj.
        assert (Q1 : elem mi = elem mi0). { destruct (nth_error els i) as [x|] eqn:Ex; [|apply nth_error_None in Ex; assert (i < List.length l) by (apply nth_error_Some; congruence); lia].
          destruct (f2_nth _ _ _ Cu i x mi Ex Hi) as (-> & _). destruct (f2_nth _ _ _ Km i x mi0 Ex Oi) as (-> & _). reflexivity. }
        assert (Q2 : elem mj = elem mj0). { destruct (nth_error els j) as [x|] eqn:Ex; [|apply nth_error_None in Ex; assert (j < List.length l) by (apply nth_error_Some; congruence); lia].
          destruct (f2_nth _ _ _ Cu j x mj Ex Hj) as (-> & _). destruct (f2_nth _ _ _ Km j x mj0 Ex Oj) as (-> & _). reflexivity. }
        now rewrite Q1, Q2.
      - rewrite (norm_ok p l nm mc Cu I'). cbn [bind]. exists nm, (fresh_norm K o Ev wt V P p els mc). split; [reflexivity|]. split; [congruence|]. auto. }
    destruct U as (nm & v & -> & Lnm & Un). cbn [bind]. eexists. split; [reflexivity|].
    set (rl := map (fun m : me => Me K Ev V P (elem m) (ext m) (changed m) false (coef m)) l).
    assert (Nr : forall j m, nth_error rl j = Some m -> exists m0, nth_error l j = Some m0 /\ m = Me K Ev V P (elem m0) (ext m0) (changed m0) false (coef m0)).
    { intros j m Hj. subst rl. rewrite nth_error_map in Hj. destruct (nth_error l j) as [m0|]; [|discriminate]. injection Hj as <-. eauto. }
    assert (Cr : Forall2 (current p) els rl).
    { subst rl. clear - Cu. induction Cu as [|x m xs l (A & B & D) _ IH]; [constructor|]. cbn [map]. constructor; [|assumption]. repeat split; assumption. }
    assert (Lr : List.length rl = List.length els) by (symmetry; now apply f2_length with (1 := Cr)).
    assert (Ne : now_events (h ++ [Prepare]) = now_events h) by (unfold now_events; rewrite fold_left_app; reflexivity).
    assert (Nm : now_mc (h ++ [Prepare]) = now_mc h) by (unfold now_mc; rewrite fold_left_app; reflexivity).
    assert (Ic : match i_events g with Some mc => integrals nm rl mc | None => True end).
    { destruct (i_events g); [|exact I]. intros i j mi mj Hij Hi Hj. destruct (Nr i mi Hi) as (mi0 & Oi & ->). destruct (Nr j mj Hj) as (mj0 & Oj & ->).
      cbn [elem ext]. rewrite Lr, <- Ll. now apply (proj1 Un). }
    assert (Fz : forall j m, nth_error rl j = Some m -> changed m = false /\ orows AoS (events s) c j (amp (elem m) (ext m)) /\ orows SoA (i_events g) (i_cache g) j (amp (elem m) (ext m))).
    { intros j m Hj. destruct (Nr j m Hj) as (m0 & Oj & ->). cbn [changed elem ext]. rewrite Ie. exact (Fr' j m0 Oj). }
    split; [|split; [|exact Cr]].
    - unfold inv. cbn [mes events cache integ norms calls].
      split; [clear - Cr; induction Cr as [|x m xs l0 H _ IH]; constructor; [now apply (current_kept p)|assumption]|].
      split; [congruence|]. split; [congruence|]. split; [assumption|].
      split; [destruct (events s); [right; exact (proj1 Rc')|exact Rc']|]. split; [rewrite Ie; assumption|]. split; [congruence|]. split; [assumption|].
      split; [rewrite Ie, Iw, In_; exact Wn|]. split; [intros j m Hj; destruct (Nr j m Hj) as (m0 & _ & ->); reflexivity|]. intros _. split; [exact Fz|exact Ic].
    - unfold prepared. cbn [mes events cache integ norms m_norm]. rewrite <- Ee, <- Em. split.
      + destruct (events s) as [evts|]; [|exact I]. intros e x Hx.
        assert (Rd : forall k y, nth_error els k = Some y -> read C AoS c e k = Ok (fresh K Ev V P p y x)).
        { intros k y Hk. destruct (nth_error rl k) as [m|] eqn:Hm; [|apply nth_error_None in Hm; assert (k < List.length els) by (apply nth_error_Some; congruence); lia].
          destruct (Fz k m Hm) as (_ & H & _). destruct (f2_nth _ _ _ Cr k y m Hk Hm) as (A & B & _). unfold fresh. rewrite <- B, <- A. exact (H e x Hx). }
        split; [exact Rd|]. unfold get_val. cbn [mes cache]. fold rl. rewrite Lr.
        rewrite (sum_over_ok _ (fun k => match nth_error els k with Some y => cmul o (coupling (fst y) p) (fresh K Ev V P p y x) | None => c0 o end)).
        * f_equal. unfold fresh_sum. rewrite <- (numbered_fst els), fold_map.
          assert (G : forall acc, fold_left (fun acc y => cadd o acc (cmul o (coupling (fst y) p) (fresh K Ev V P p y x))) els acc =
            fold_left (fun acc (iy : nat * (element * list V)) => cadd o acc (cmul o (coupling (fst (snd iy)) p) (fresh K Ev V P p (snd iy) x))) (numbered els) acc).
          { intro acc. rewrite <- (fold_map (fun acc y => cadd o acc (cmul o (coupling (fst y) p) (fresh K Ev V P p y x))) snd (numbered els)). f_equal. unfold numbered.
            generalize 0. clear. induction els as [|y t IH]; intro k; [reflexivity|]. cbn [List.length seq combine map snd]. now rewrite <- IH. }
          rewrite G. apply fold_ext. intros b [k y] Hk. cbn [fst snd]. apply in_numbered in Hk. now rewrite Hk.
        * intros k Hk. apply in_seq in Hk. destruct (nth_error els k) as [y|] eqn:Ey; [|apply nth_error_None in Ey; lia].
          destruct (nth_error rl k) as [m|] eqn:Hm; [|apply nth_error_None in Hm; lia]. cbn [of_opt bind]. rewrite (Rd k y Ey). cbn [bind].
          destruct (f2_nth _ _ _ Cr k y m Ey Hm) as (_ & _ & ->). reflexivity.
      + rewrite Ie in Un, Ic. destruct (i_events (integ s)) as [mc|]; [|exact I]. split; [|exact (proj2 Un)].
        intros i j x y Hij Hi Hj. assert (i < List.length els) by (apply nth_error_Some; congruence). assert (j < List.length els) by (apply nth_error_Some; congruence).
        destruct (nth_error rl i) as [mi|] eqn:Mi; [|apply nth_error_None in Mi; lia]. destruct (nth_error rl j) as [mj|] eqn:Mj; [|apply nth_error_None in Mj; lia].
        destruct (f2_nth _ _ _ Cr i x mi Hi Mi) as (A1 & B1 & _). destruct (f2_nth _ _ _ Cr j y mj Hj Mj) as (A2 & B2 & _).
        unfold fresh. rewrite <- B1, <- A1, <- B2, <- A2, <- Lr. now apply Ic.
  Qed.

  Lemma step_ok h p s a : inv h s -> match a with SetEvents l | SetMC l => (N.of_nat (List.length l) < 4294967296)%N | _ => True end ->
    exists s', step K o Ev wt V veqb P a (p, s) = Ok (now_p p [a], s') /\ inv (h ++ [a]) s'.
  Proof.
    intros Iv Sh. destruct a as [q|evts|mc|b|].
    - exists s. split; [reflexivity|]. unfold inv, now_events, now_mc. rewrite !fold_left_app. exact Iv.
    - eexists. split; [reflexivity|]. destruct Iv as (Km & Ee & Em & Rc & Cc & Rg & Q & Ln & Wn & Td & Fr).
      assert (R : reg evts (allocate C (c0 o) 1 (List.length evts) (functors K Ev V P (mes s)) (cache s))) by (apply allocate_reg; auto using kept_elems).
      unfold inv, now_events, now_mc. rewrite !fold_left_app. cbn [fold_left set_events reset mes events cache integ norms m_norm calls snd].
      repeat split; auto; try (apply R); try (right; apply R); try (intros; contradiction).
    - eexists. split; [reflexivity|]. destruct Iv as (Km & Ee & Em & Rc & Cc & Rg & Q & Ln & Wn & Td & Fr).
      assert (R : reg mc (allocate C (c0 o) 1 (List.length mc) (functors K Ev V P (mes s)) (construct C (c0 o) 1 0 0))).
      { apply allocate_reg; auto using kept_elems. left. split; reflexivity. }
      unfold inv, now_events, now_mc. rewrite !fold_left_app.
      cbn [fold_left set_mc reset new_integrator mes events cache integ norms m_norm calls snd i_events i_cache i_weight i_norm queue].
      repeat split; auto; try (apply R); try (intros; contradiction).
    - eexists. split; [reflexivity|]. destruct Iv as (Km & Ee & Em & Rc & Cc & Rg & Q & Ln & Wn & Td & Fr).
      unfold inv, now_events, now_mc. rewrite !fold_left_app.
      destruct b; cbn [fold_left reset no_integrator mes events cache integ norms m_norm calls snd i_events i_cache i_weight i_norm queue oreg].
      + repeat split; auto; try (intros; contradiction). left. split; reflexivity.
      + repeat split; auto; try (intros; contradiction).
    - destruct (prepare_ok p h s Iv) as (s' & E & Iv' & _). exists s'. cbn [step fst snd]. rewrite E. cbn [bind]. split; [reflexivity|assumption].
  Qed.
  Lemma run_ok : forall h2 h1 p s, inv h1 s -> short h2 -> exists s', run K o Ev wt V veqb P h2 (p, s) = Ok (now_p p h2, s') /\ inv (h1 ++ h2) s'.
  Proof.
    induction h2 as [|a h2 IH]; intros h1 p s Iv Sh.
    - exists s. rewrite app_nil_r. split; [reflexivity|assumption].
    - destruct (step_ok h1 p s a Iv (Sh a (or_introl eq_refl))) as (s1 & E1 & Iv1). cbn [run]. rewrite E1. cbn [bind].
      destruct (IH (h1 ++ [a]) (now_p p [a]) s1 Iv1) as (s' & E & Iv'). { intros b Hb. apply Sh. now right. }
      exists s'. rewrite E. rewrite <- app_assoc in Iv'. split; [reflexivity|assumption].
  Qed.
  Lemma start_inv c v : inv [] (start K o Ev V P els c v).
  Proof.
    unfold inv, start. cbn [mes events cache integ norms calls no_integrator i_events i_cache queue oreg now_events now_mc fold_left].
    split. { clear. induction els as [|x l IH]; cbn [map]; constructor; [|assumption]. repeat split; auto. }
    repeat split; auto; try (now left).
    - rewrite repeat_length. reflexivity.
    - intros j m Hj. rewrite nth_error_map in Hj. destruct (nth_error els j); [|discriminate]. injection Hj as <-. reflexivity.
    - intros; contradiction.
  Qed.

  Theorem never_stale_current h p0 c v : short h -> exists s, run K o Ev wt V veqb P (h ++ [Prepare]) (p0, start K o Ev V P els c v) = Ok (now_p p0 h, s) /\ prepared (now_p p0 h) h s /\
    Forall2 (current (now_p p0 h)) els (mes s).
  Proof.
    intro Sh. destruct (run_ok h [] p0 _ (start_inv c v) Sh) as (s & E & Iv). cbn [app] in Iv.
    destruct (prepare_ok (now_p p0 h) h s Iv) as (s' & Ep & _ & Pr & Cu). exists s'.
    assert (G : forall h1 h2 st, run K o Ev wt V veqb P (h1 ++ h2) st = bind (run K o Ev wt V veqb P h1 st) (run K o Ev wt V veqb P h2)).
    { induction h1 as [|a h1 IH]; intros h2 st; [reflexivity|]. cbn [app run]. destruct (step K o Ev wt V veqb P a st); cbn [bind]; auto. }
    rewrite G, E. cbn [bind run step fst snd]. rewrite Ep. cbn [bind]. split; [reflexivity|]. split; assumption.
  Qed.
  Theorem never_stale h p0 c v : short h -> exists s, run K o Ev wt V veqb P (h ++ [Prepare]) (p0, start K o Ev V P els c v) = Ok (now_p p0 h, s) /\ prepared (now_p p0 h) h s.
  Proof. intro Sh. destruct (never_stale_current h p0 c v Sh) as (s & E & Pr & _). eauto. Qed.
End Sum.
