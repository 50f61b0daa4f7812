From Coq Require Import NArith Nnat.
From Verif.Common Require Import Prelude Writes.
From Verif.Store Require Import Model Spec.
Local Open Scope nat_scope.

Lemma unsigned_small n : (N.of_nat n < 4294967296)%N -> unsigned_of n = n.
Proof. intro H. unfold unsigned_of. rewrite N.mod_small by assumption. apply Nat2N.id. Qed.
(** The blocks hold all entries. *)
Lemma blocks_hold w n i : 0 < w -> (N.of_nat n < 4294967296)%N -> i < n -> i / w < blocks w n.
Proof.
  intros Hw H Hi. unfold blocks. destruct (n =? 0) eqn:E; [apply Nat.eqb_eq in E; lia|].
  assert (Q : (n - 1) / w <= n - 1) by (apply Nat.div_le_upper_bound; nia).
  rewrite unsigned_small by lia. assert (i / w <= (n - 1) / w) by (apply Nat.div_le_mono; lia). lia.
Qed.

Lemma nodup_left {A} (a b : list A) : NoDup (a ++ b) -> NoDup a.
Proof.
  induction a as [|x a IH]; intro H; [constructor|]. cbn [app] in H. inversion H as [|? ? N H']; subst. constructor; [|now apply IH].
  intro I. apply N. apply in_app_iff. now left.
Qed.

Section Store.
  Variables (V : Type) (v0 : V) (al : layout) (w : nat).
  Definition sized (s : store V) : Prop := List.length (cells s) = n_blocks s * n_fields s.

  Lemma vresize_length l n : List.length (vresize V v0 l n) = n.
  Proof. unfold vresize. rewrite app_length, firstn_length, repeat_length. lia. Qed.
  Lemma vresize_nth l n k : k < n -> k < List.length l -> nth_error (vresize V v0 l n) k = nth_error l k.
  Proof.
    intros H1 H2. unfold vresize. rewrite nth_error_app1 by (rewrite firstn_length; lia).
    revert k l H1 H2. induction n as [|n IH]; intros k l H1 H2; [lia|]. destruct l as [|x l]; [cbn in H2; lia|].
    destruct k as [|k]; [reflexivity|]. cbn [firstn nth_error]. apply IH; cbn in H2; lia.
  Qed.
  Lemma address_lt s i f : i < n_blocks s -> f < n_fields s -> address V al s i f < n_blocks s * n_fields s.
  Proof. unfold address. destruct al; nia. Qed.
  Lemma address_inj s i f i' f' : i < n_blocks s -> f < n_fields s -> i' < n_blocks s -> f' < n_fields s ->
    address V al s i f = address V al s i' f' -> i = i' /\ f = f'.
  Proof.
    unfold address. intros H1 H2 H3 H4 E. destruct al.
    - destruct (Nat.div_mod_unique (n_blocks s) f f' i i') as [-> ->]; [assumption|assumption|lia|auto].
    - destruct (Nat.div_mod_unique (n_fields s) i i' f f') as [-> ->]; [assumption|assumption|lia|auto].
  Qed.

  Lemma read_ok s i f : sized s -> i < n_blocks s -> f < n_fields s -> exists v, read V al s i f = Ok v.
  Proof.
    intros S Hi Hf. unfold read. destruct (nth_error (cells s) (address V al s i f)) as [v|] eqn:E; [eexists; reflexivity|].
    apply nth_error_None in E. rewrite S in E. pose proof (address_lt s i f Hi Hf). lia.
  Qed.
  Lemma write_ok s i f v : sized s -> i < n_blocks s -> f < n_fields s -> exists s', write V al s i f v = Ok s' /\
    sized s' /\ n_entries s' = n_entries s /\ n_blocks s' = n_blocks s /\ n_fields s' = n_fields s /\ names s' = names s /\
    forall i' f', i' < n_blocks s -> f' < n_fields s ->
      read V al s' i' f' = if (i' =? i) && (f' =? f) then Ok v else read V al s i' f'.
  Proof.
    intros S Hi Hf. pose proof (address_lt s i f Hi Hf) as A. rewrite <- S in A.
    destruct (set_at_Some (address V al s i f) v (cells s) A) as (c & E & L & K). unfold write. rewrite E. cbn [of_opt bind].
    eexists. split; [reflexivity|]. unfold sized. cbn [cells n_blocks n_fields n_entries names]. rewrite L.
    repeat split; [exact S|]. intros i' f' Hi' Hf'. unfold read, address. cbn [cells n_blocks n_fields].
    fold (address V al s i' f'). rewrite K. destruct (Nat.eqb_spec (address V al s i' f') (address V al s i f)) as [Ea|Ea].
    - apply address_inj in Ea as [-> ->]; [|assumption..]. now rewrite !Nat.eqb_refl.
    - destruct ((i' =? i) && (f' =? f)) eqn:X; [|reflexivity]. apply andb_true_iff in X as [X1 X2]. apply Nat.eqb_eq in X1, X2. subst. congruence.
  Qed.
  Lemma write_inv s i f v s' : write V al s i f v = Ok s' -> n_blocks s' = n_blocks s /\ n_fields s' = n_fields s /\ n_entries s' = n_entries s /\
    List.length (cells s') = List.length (cells s).
  Proof.
    unfold write. intro H. destruct (Nat.lt_ge_cases (address V al s i f) (List.length (cells s))) as [L|L].
    - destruct (set_at_Some _ v _ L) as (c & E & Lc & _). rewrite E in H. cbn [of_opt bind] in H. injection H as <-. cbn. auto.
    - rewrite set_at_None in H by assumption. discriminate.
  Qed.
  Lemma add_same n k s : n_blocks (add_functor V n k s) = n_blocks s /\ n_entries (add_functor V n k s) = n_entries s.
  Proof. unfold add_functor. destruct (lookup n (names s)); cbn; auto. Qed.
  Lemma blocks_inv c : forall h s s', c = n_entries s -> n_blocks s = blocks w c -> run V v0 al w h s = Ok s' -> n_blocks s' = blocks w (n_entries s').
  Proof.
    intros h. revert c. induction h as [|o h IH]; intros c s s' -> B H.
    - cbn [run] in H. injection H as <-. exact B.
    - cbn [run] in H. destruct o; cbn [step bind] in H.
      + apply (IH (n_entries (add_functor V n size s)) _ _ eq_refl) in H; [exact H|]. destruct (add_same n size s) as [-> ->]. exact B.
      + now apply (IH _ _ _ eq_refl) in H.
      + now apply (IH _ _ _ eq_refl) in H.
      + apply (IH _ _ _ eq_refl) in H; [exact H|exact B].
      + now apply (IH _ _ _ eq_refl) in H.
      + destruct (write V al s index field v) as [s1| | |] eqn:E; try discriminate. cbn [bind] in H.
        apply write_inv in E as (E1 & E2 & E3 & _). apply (IH _ _ _ eq_refl) in H; [exact H|]. rewrite E1, E3. exact B.
  Qed.
  Lemma sized_inv : forall h s s' b, (b = true -> sized s) -> run V v0 al w h s = Ok s' -> up_to_date V h b = true -> sized s'.
  Proof.
    induction h as [|o h IH]; intros s s' b S H U.
    - cbn [run up_to_date] in *. injection H as <-. auto.
    - cbn [run] in H. destruct o; cbn [step bind up_to_date] in *.
      + apply (IH _ _ false) in H; [assumption|discriminate|assumption].
      + apply (IH _ _ true) in H; [assumption| |assumption]. intros _. unfold sized, resize. cbn. apply vresize_length.
      + apply (IH _ _ true) in H; [assumption| |assumption]. intros _. unfold sized, resize2. cbn. apply vresize_length.
      + apply (IH _ _ false) in H; [assumption|discriminate|assumption].
      + apply (IH _ _ true) in H; [assumption| |assumption]. intros _. unfold sized, allocate, resize. cbn. apply vresize_length.
      + destruct (write V al s index field v) as [s1| | |] eqn:E; try discriminate. cbn [bind] in H. apply write_inv in E as (E1 & E2 & _ & E3).
        apply (IH _ _ b) in H; [assumption| |assumption]. intro X. unfold sized. rewrite E1, E2, E3. now apply S.
  Qed.

  Theorem cells_ok h e0 f0 s : run V v0 al w h (construct V v0 w e0 f0) = Ok s -> up_to_date V h true = true ->
    n_blocks s = blocks w (n_entries s) /\
    (forall i f, i < n_blocks s -> f < n_fields s -> exists v, read V al s i f = Ok v) /\
    (forall i f v, i < n_blocks s -> f < n_fields s -> exists s', write V al s i f v = Ok s' /\
       n_entries s' = n_entries s /\ n_fields s' = n_fields s /\ names s' = names s /\ read V al s' i f = Ok v /\
       forall i' f', i' < n_blocks s -> f' < n_fields s -> (i', f') <> (i, f) -> read V al s' i' f' = read V al s i' f').
  Proof.
    intros R U. assert (S : sized s).
    { apply (sized_inv h _ _ true) with (2 := R); [|exact U]. intros _. unfold sized, construct. cbn. apply repeat_length. }
    split; [apply (blocks_inv e0 h) with (3 := R); reflexivity|]. split; [intros; now apply read_ok|].
    intros i f v Hi Hf. destruct (write_ok s i f v S Hi Hf) as (s' & E & S' & E1 & E2 & E3 & E4 & K). exists s'.
    repeat (split; [assumption|]). split; [rewrite K by assumption; now rewrite !Nat.eqb_refl|].
    intros i' f' Hi' Hf' Ne. rewrite K by assumption. destruct ((i' =? i) && (f' =? f)) eqn:X; [|reflexivity].
    apply andb_true_iff in X as [X1 X2]. apply Nat.eqb_eq in X1, X2. subst. congruence.
  Qed.

  (** ** Updating all events *)
  Lemma store_item_ok ev : forall index item s, sized s -> ev < n_blocks s -> (forall f, In f index -> f < n_fields s) -> NoDup index ->
    List.length item = List.length index -> exists s', store_item V al ev index item s = Ok s' /\ sized s' /\ n_blocks s' = n_blocks s /\
      n_fields s' = n_fields s /\ names s' = names s /\
      (forall k f v, nth_error index k = Some f -> nth_error item k = Some v -> read V al s' ev f = Ok v) /\
      forall i f, i < n_blocks s -> f < n_fields s -> (i <> ev \/ ~ In f index) -> read V al s' i f = read V al s i f.
  Proof.
    induction index as [|f index IH]; intros item s S Hev Hf ND L.
    - exists s. cbn [store_item]. repeat split; auto. intros [|k] ? ? H; discriminate H.
    - destruct item as [|v item]; [discriminate L|]. cbn [store_item].
      destruct (write_ok s ev f v S Hev (Hf f (or_introl eq_refl))) as (s1 & E & S1 & _ & B1 & F1 & N1 & K1). rewrite E. cbn [bind].
      inversion ND as [|? ? Nf ND']; subst.
      destruct (IH item s1 S1) as (s2 & E2 & S2 & B2 & F2 & N2 & K2 & O2).
      { now rewrite B1. } { intros g Hg. rewrite F1. apply Hf. now right. } { assumption. } { injection L; auto. }
      exists s2. split; [exact E2|]. split; [exact S2|]. split; [congruence|]. split; [congruence|]. split; [congruence|]. split.
      + intros [|k] g x Hg Hx; cbn [nth_error] in Hg, Hx; [|now apply (K2 k)].
        injection Hg as <-. injection Hx as <-. rewrite O2; [|now rewrite B1|rewrite F1; apply Hf; now left|now right].
        rewrite K1 by (auto; apply Hf; now left). now rewrite !Nat.eqb_refl.
      + intros i g Hi Hg O. rewrite O2; [|now rewrite B1|now rewrite F1|]. 2:{ destruct O as [O|O]; [now left|right; intro X; apply O; now right]. }
        rewrite K1 by assumption. destruct (Nat.eqb_spec i ev), (Nat.eqb_spec g f); cbn [andb]; subst; try reflexivity.
        destruct O as [O|O]; [congruence|]. exfalso. apply O. now left.
  Qed.
  Lemma update_loop_ok fcn f : NoDup f -> (forall e, List.length (fcn e) = List.length f) ->
    forall evts s, sized s -> (forall e, In e evts -> e < n_blocks s) -> (forall g, In g f -> g < n_fields s) ->
    exists s', update_loop V al evts fcn f s = Ok s' /\ sized s' /\ n_blocks s' = n_blocks s /\ n_fields s' = n_fields s /\ names s' = names s /\
      (forall e k g v, In e evts -> nth_error f k = Some g -> nth_error (fcn e) k = Some v -> read V al s' e g = Ok v) /\
      forall i g, i < n_blocks s -> g < n_fields s -> (~ In i evts \/ ~ In g f) -> read V al s' i g = read V al s i g.
  Proof.
    intros ND L. induction evts as [|e evts IH]; intros s S He Hf.
    - exists s. cbn [update_loop]. repeat split; auto. intros e k g v [].
    - cbn [update_loop]. destruct (store_item_ok e f (fcn e) s S (He e (or_introl eq_refl)) Hf ND (L e)) as (s1 & E1 & S1 & B1 & F1 & N1 & K1 & O1).
      rewrite E1. cbn [bind]. destruct (IH s1 S1) as (s2 & E2 & S2 & B2 & F2 & N2 & K2 & O2).
      { intros e' H. rewrite B1. apply He. now right. } { intros g H. rewrite F1. now apply Hf. }
      exists s2. split; [exact E2|]. split; [exact S2|]. split; [congruence|]. split; [congruence|]. split; [congruence|]. split.
      + intros e' k g v H Hg Hv. destruct (in_dec Nat.eq_dec e' evts) as [I|I]; [now apply (K2 e' k)|].
        destruct H as [<-|H]; [|contradiction]. rewrite O2; [now apply (K1 k)|rewrite B1; apply He; now left|rewrite F1; apply Hf; now apply nth_error_In in Hg|now left].
      + intros i g Hi Hg O. rewrite O2; [|now rewrite B1|now rewrite F1|destruct O as [O|O]; [left; intro X; apply O; now right|now right]].
        apply O1; [assumption|assumption|]. destruct O as [O|O]; [left; intro X; apply O; now left|now right].
  Qed.

  (** ** Changing the size *)
  Lemma read_after_resize s e i f : sized s -> i < n_blocks s -> f < n_fields s -> i < blocks w e ->
    (match al with SoA => blocks w e = n_blocks s | AoS => True end) -> read V al (resize V v0 w e s) i f = read V al s i f.
  Proof.
    intros S Hi Hf He A. unfold read, resize, address. cbn [cells n_blocks n_fields]. destruct al.
    - rewrite A. rewrite vresize_nth; [reflexivity|nia|rewrite S; nia].
    - rewrite vresize_nth; [reflexivity|nia|rewrite S; nia].
  Qed.
End Store.

(** ** Registration *)
Section Register.
  Variables (V : Type).
  Notation addall fs s := (fold_left (fun s f => add_functor V (fst f) (snd f) s) fs s).
  Definition tiled (base : nat) (s : store V) : Prop :=
    NoDup (map fst (names s)) /\ List.concat (rev (map snd (names s))) = seq base (n_fields s - base) /\ base <= n_fields s /\
    forall n l, In (n, l) (names s) -> exists a k, l = seq a k.
  Lemma lookup_in n l f : NoDup (map fst l) -> (lookup n l = Some f <-> In (n, f) l).
  Proof.
    induction l as [|[k v] l IH]; intro ND; [cbn; split; [discriminate|intros []]|]. cbn [map fst] in ND. inversion ND as [|? ? Nk ND']; subst.
    cbn [lookup In]. destruct (str_eqb_spec k n) as [->|Ne].
    - split; [intro H; left; congruence|]. intros [H|H]; [congruence|]. exfalso. apply Nk. apply in_map_iff. exists (n, f). auto.
    - rewrite IH by assumption. split; [now right|]. intros [H|H]; [congruence|assumption].
  Qed.
  Lemma lookup_none n l : lookup n l = None <-> ~ In n (map fst l).
  Proof.
    induction l as [|[k v] l IH]; [cbn; tauto|]. cbn [lookup map fst In]. destruct (str_eqb_spec k n) as [->|Ne]; [split; [discriminate|tauto]|].
    rewrite IH. tauto.
  Qed.
  Lemma add_tiled base n k s : tiled base s -> tiled base (add_functor V n k s).
  Proof.
    intros (ND & C & B & Sq). unfold add_functor. destruct (lookup n (names s)) eqn:E; [now split|]. apply lookup_none in E.
    unfold tiled. cbn [names n_fields map fst snd rev]. split; [now constructor|]. split; [|split; [lia|]].
    - rewrite List.concat_app, C. cbn [List.concat]. rewrite app_nil_r. replace (n_fields s + k - base) with ((n_fields s - base) + k) by lia.
      rewrite seq_app. f_equal. f_equal. lia.
    - intros m l [H|H]; [injection H as _ <-; eauto|now apply (Sq m)].
  Qed.
  Lemma addall_tiled base fs : forall s, tiled base s -> tiled base (addall fs s).
  Proof. induction fs as [|f fs IH]; intros s T; [exact T|]. cbn [fold_left]. apply IH. now apply add_tiled. Qed.
  Lemma add_keeps n k s m l : lookup m (names s) = Some l -> lookup m (names (add_functor V n k s)) = Some l.
  Proof.
    intro H. unfold add_functor. destruct (lookup n (names s)) eqn:E; [assumption|]. cbn [names lookup].
    destruct (str_eqb_spec n m) as [->|]; [congruence|assumption].
  Qed.
  Lemma addall_keeps fs : forall s m l, lookup m (names s) = Some l -> lookup m (names (addall fs s)) = Some l.
  Proof. induction fs as [|f fs IH]; intros s m l H; [assumption|]. cbn [fold_left]. apply IH. now apply add_keeps. Qed.
  Lemma addall_fields fs : forall s, n_fields s <= n_fields (addall fs s).
  Proof.
    induction fs as [|f fs IH]; intro s; [reflexivity|]. cbn [fold_left]. etransitivity; [|apply IH]. unfold add_functor.
    destruct (lookup (fst f) (names s)); cbn [n_fields]; lia.
  Qed.
  Lemma addall_lookup fs : forall s n, lookup n (names s) = None ->
    match first_size n fs with
    | Some k => exists a, lookup n (names (addall fs s)) = Some (seq a k) /\ a + k <= n_fields (addall fs s)
    | None => lookup n (names (addall fs s)) = None
    end.
  Proof.
    induction fs as [|[m k] fs IH]; intros s n H; [exact H|]. cbn [first_size fold_left fst snd]. destruct (str_dec m n) as [->|Ne].
    - exists (n_fields s). assert (E : lookup n (names (add_functor V n k s)) = Some (seq (n_fields s) k)).
      { unfold add_functor. rewrite H. cbn [names lookup]. now rewrite str_eqb_refl. }
      split; [now apply addall_keeps|]. pose proof (addall_fields fs (add_functor V n k s)) as F. unfold add_functor in F at 1. rewrite H in F. exact F.
    - apply IH. unfold add_functor. destruct (lookup m (names s)) eqn:E; [assumption|]. cbn [names lookup].
      destruct (str_eqb_spec m n); [contradiction|assumption].
  Qed.
  Lemma concat_disjoint {A} (l : list (str * list A)) : NoDup (List.concat (rev (map snd l))) -> forall n n' f f' x,
    n <> n' -> In (n, f) l -> In (n', f') l -> In x f -> ~ In x f'.
  Proof.
    induction l as [|[k v] l IH]; cbn [map snd rev]; intros ND n n' f f' x Ne H H' Hx Hx'; [destruct H|].
    rewrite List.concat_app in ND. cbn [List.concat] in ND. rewrite app_nil_r in ND.
    assert (D : forall y, In y v -> forall m g, In (m, g) l -> ~ In y g).
    { intros y Hy m g Hg Hyg. clear - ND Hy Hg Hyg. revert ND.
      assert (In y (List.concat (rev (map snd l)))) as Hc.
      { apply in_concat. exists g. split; [|assumption]. apply -> in_rev. apply in_map_iff. exists (m, g). auto. }
      revert Hc. generalize (List.concat (rev (map snd l))). intros c Hc ND. induction c as [|z c IH]; [destruct Hc|].
      cbn [app] in ND. inversion ND as [|? ? Nz ND']; subst. destruct Hc as [->|Hc]; [|now apply IH]. apply Nz. apply in_app_iff. now right. }
    destruct H as [H|H], H' as [H'|H'].
    - congruence.
    - injection H as -> ->. exact (D x Hx n' f' H' Hx').
    - injection H' as -> ->. exact (D x Hx' n f H Hx).
    - apply (IH (nodup_left _ _ ND) n n' f f' x); assumption.
  Qed.
  Theorem register_ok fs s : names s = [] -> n_fields s = 0 -> let s' := addall fs s in
    (forall n, match first_size n fs with
       | Some k => exists a, lookup n (names s') = Some (seq a k) /\ a + k <= n_fields s'
       | None => lookup n (names s') = None end) /\
    (forall n n' l l' f, n <> n' -> lookup n (names s') = Some l -> lookup n' (names s') = Some l' -> In f l -> ~ In f l') /\
    (forall f, f < n_fields s' -> exists n l, lookup n (names s') = Some l /\ In f l) /\
    (forall n k, In n (map fst fs) -> add_functor V n k s' = s').
  Proof.
    intros N F s'. assert (T : tiled 0 s').
    { apply addall_tiled. unfold tiled. rewrite N, F. cbn. split; [constructor|]. split; [reflexivity|]. split; [lia|]. intros n l []. }
    destruct T as (ND & C & _ & Sq). split; [|split; [|split]].
    - intro n. apply addall_lookup. rewrite N. reflexivity.
    - intros n n' l l' f Ne H H' Hf. apply lookup_in in H; [|assumption]. apply lookup_in in H'; [|assumption].
      apply (concat_disjoint (names s')) with (n := n) (n' := n') (f := l); try assumption. rewrite C. apply seq_NoDup.
    - intros f Hf. assert (I : In f (List.concat (rev (map snd (names s'))))) by (rewrite C; apply in_seq; lia).
      apply in_concat in I as (l & Hl & Hi). apply in_rev in Hl. apply in_map_iff in Hl as ([n l'] & El & Hn). cbn [snd] in El. subst l'.
      exists n, l. split; [now apply lookup_in|assumption].
    - intros n k H. assert (X : lookup n (names s') <> None).
      { pose proof (addall_lookup fs s n ltac:(rewrite N; reflexivity)) as A. fold s' in A. destruct (first_size n fs) as [z|] eqn:E; [destruct A as (a & -> & _); discriminate|].
        exfalso. clear A. induction fs as [|[m z] fs IH]; [destruct H|]. cbn [first_size] in E. destruct (str_dec m n) as [->|Ne]; [discriminate|].
        cbn [map fst In] in H. destruct H as [H|H]; [congruence|]. clear - E H. induction fs as [|[m z] fs IH]; [destruct H|]. cbn [first_size] in E.
        destruct (str_dec m n) as [->|Ne]; [discriminate|]. destruct H as [H|H]; [cbn in H; congruence|now apply IH]. }
      unfold add_functor. destruct (lookup n (names s')); congruence.
  Qed.
End Register.
