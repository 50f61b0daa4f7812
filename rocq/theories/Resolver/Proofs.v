From Verif.Common Require Import Prelude.
From Verif.Resolver Require Import Model Spec.

(** ** Maps *)
Lemma look_put {V} k k' (v : V) m : look k' (put k v m) = if k' =? k then Some v else look k' m.
Proof.
  induction m as [|[j w] m IH]; cbn [put look]; [reflexivity|].
  destruct (k =? j) eqn:E1.
  - apply Nat.eqb_eq in E1. subst j. cbn [look]. now destruct (k' =? k).
  - destruct (k <? j) eqn:E2; cbn [look]; [reflexivity|]. rewrite IH.
    destruct (k' =? k) eqn:E3; [|reflexivity]. apply Nat.eqb_eq in E3. subst k'. now rewrite E1.
Qed.
Lemma look_in {V} k (v : V) m : look k m = Some v -> In (k, v) m.
Proof.
  induction m as [|[j w] m IH]; cbn [look]; [discriminate|]. destruct (k =? j) eqn:E; intro H.
  - apply Nat.eqb_eq in E. subst j. left. congruence.
  - right. auto.
Qed.
Lemma look_none {V} k (m : list (nat * V)) : look k m = None -> ~ In k (map fst m).
Proof.
  induction m as [|[j w] m IH]; cbn [look map fst]; [intros _ []|]. destruct (k =? j) eqn:E; [discriminate|].
  intros H [X|X]; [subst j; rewrite Nat.eqb_refl in E; discriminate|]. now apply IH.
Qed.
Lemma in_put {V} k (v : V) m x : In x (put k v m) -> x = (k, v) \/ In x m.
Proof.
  induction m as [|[j w] m IH]; cbn [put]; [intros [H|[]]; auto|].
  destruct (k =? j); [intros [H|H]; [auto|right; now right]|].
  destruct (k <? j); [intros [H|H]; auto|]. intros [H|H]; [right; now left|].
  destruct (IH H) as [X|X]; [auto|right; now right].
Qed.
Lemma put_in_new {V} k (v : V) m : In (k, v) (put k v m).
Proof.
  induction m as [|[j w] m IH]; cbn [put]; [now left|]. destruct (k =? j); [now left|]. destruct (k <? j); [now left|now right].
Qed.
Lemma put_in_old {V} k (v : V) m x : In x m -> fst x <> k -> In x (put k v m).
Proof.
  induction m as [|[j w] m IH]; [intros []|]. intros [H|H] N; cbn [put].
  - subst x. cbn [fst] in N. destruct (k =? j) eqn:E; [apply Nat.eqb_eq in E; congruence|].
    destruct (k <? j); [right; now left|now left].
  - destruct (k =? j) eqn:E; [now right|]. destruct (k <? j); [right; now right|right; auto].
Qed.
Lemma put_nodup {V} k (v : V) m : NoDup (map fst m) -> look k m = None -> NoDup (map fst (put k v m)).
Proof.
  induction m as [|[j w] m IH]; intros N H; cbn [put look] in *; [constructor; [intros []|constructor]|].
  destruct (k =? j) eqn:E; [discriminate|]. cbn [map fst] in N. inversion N as [|? ? N1 N2]; subst.
  destruct (k <? j); cbn [map fst].
  - constructor; [|assumption]. intros [X|X]; [subst j; rewrite Nat.eqb_refl in E; discriminate|].
    now apply look_none in H.
  - constructor; [|auto]. intro X. apply in_map_iff in X as ([i u] & X1 & X2). cbn [fst] in X1. subst i.
    apply in_put in X2 as [X2|X2]; [injection X2 as -> _; rewrite Nat.eqb_refl in E; discriminate|].
    apply N1. apply in_map_iff. exists (j, u). auto.
Qed.

(** ** Occurrence *)
Fixpoint sub_rect' (P : sub -> Prop) (H : forall p k l, Forall P l -> P (Sub p k l)) (s : sub) : P s :=
  match s with
  | Sub p k l => H p k l ((fix go (l : list sub) : Forall P l :=
      match l with [] => Forall_nil _ | x :: r => Forall_cons _ (sub_rect' P H x) (go r) end) l)
  end.
Lemma occurs_trans l s x : occurs l s -> occurs (inner_of s) x -> occurs l x.
Proof.
  induction 1 as [l s Hi|l p k l' s Hi Ho IH]; intro Hx.
  - destruct s as [p k l']. cbn [inner_of] in Hx. eapply occurs_below; eassumption.
  - eapply occurs_below; [eassumption|auto].
Qed.
Lemma height_in s l : In s l -> height s <= list_max (map height l).
Proof.
  intro H. assert (X : Forall (fun k => k <= list_max (map height l)) (map height l)) by (apply list_max_le; lia).
  rewrite Forall_forall in X. apply X. now apply in_map.
Qed.
Lemma height_occurs l x : occurs l x -> height x <= list_max (map height l).
Proof.
  induction 1 as [l s Hi|l p k l' s Hi Ho IH]; [now apply height_in|].
  apply height_in in Hi. cbn [height] in Hi. lia.
Qed.
Lemma height_pos s : 1 <= height s.
Proof. destruct s. cbn [height]. lia. Qed.

(** ** Collecting *)
Section Universe.
  Variable e : list sub.
  Hypothesis One : one_node_per_address e.
  Hypothesis NoColl : no_collision e.

  Definition has (tmp : list (nat * sub)) (s : sub) := In (ptr_of s, s) tmp.
  Definition okt (tmp : list (nat * sub)) := forall p s, In (p, s) tmp -> ptr_of s = p /\ occurs e s.
  Definition closed (tmp : list (nat * sub)) := forall s, has tmp s -> forall x, occurs (inner_of s) x -> has tmp x.

  Definition collects (f : list (nat * sub) -> list (nat * sub)) (S : sub -> Prop) := forall tmp,
    okt tmp -> closed tmp -> okt (f tmp) /\ closed (f tmp) /\ forall x, has (f tmp) x <-> has tmp x \/ S x.

  Lemma collects_list l : Forall (fun s => occurs e s -> collects (resolve s) (fun x => x = s \/ occurs (inner_of s) x)) l ->
    (forall s, In s l -> occurs e s) -> collects (resolve_expr l) (occurs l).
  Proof.
    induction 1 as [|s l Hs Hl IH]; intros Ho tmp Hok Hc.
    - cbn. split; [assumption|]. split; [assumption|]. intro x. split; [auto|]. intros [H|H]; [assumption|].
      inversion H as [? ? Hi|? ? ? ? ? Hi]; destruct Hi.
    - cbn [resolve_expr fold_left].
      destruct (Hs (Ho s (or_introl eq_refl)) tmp Hok Hc) as (O1 & C1 & E1).
      destruct (IH (fun s' H => Ho s' (or_intror H)) _ O1 C1) as (O2 & C2 & E2).
      split; [exact O2|]. split; [exact C2|]. intro x. unfold resolve_expr in E2. rewrite E2, E1. split.
      + intros [[H|[H|H]]|H]; auto.
        * right. subst x. constructor. now left.
        * right. destruct s as [p k l']. eapply occurs_below; [now left|exact H].
        * right. inversion H as [? ? Hi|? ? ? ? ? Hi Ho']; subst; [constructor; now right|].
          eapply occurs_below; [right; exact Hi|assumption].
      + intros [H|H]; [auto|]. inversion H as [? ? Hi|? p k l' ? Hi Ho']; subst.
        * destruct Hi as [Hi|Hi]; [auto|right; now constructor].
        * destruct Hi as [Hi|Hi]; [subst s; auto|]. right. eapply occurs_below; eassumption.
  Qed.

  Lemma collects_sub s : occurs e s -> collects (resolve s) (fun x => x = s \/ occurs (inner_of s) x).
  Proof.
    induction s as [p k l IH] using sub_rect'. intros Ho tmp Hok Hc. cbn [resolve inner_of].
    destruct (look p tmp) as [s'|] eqn:E.
    - apply look_in in E. destruct (Hok _ _ E) as [P1 P2].
      assert (s' = Sub p k l) by (apply One; [assumption|assumption|exact P1]). subst s'.
      split; [assumption|]. split; [assumption|]. intro x. split; [auto|].
      intros [H|[-> |H]]; [assumption|exact E|]. apply (Hc (Sub p k l)); [exact E|exact H].
    - assert (Hl : forall s, In s l -> occurs e s).
      { intros s Hi. eapply occurs_trans; [exact Ho|]. now constructor. }
      destruct (collects_list l IH Hl tmp Hok Hc) as (O1 & C1 & E1). fold (resolve_expr l tmp).
      set (t := resolve_expr l tmp) in *.
      assert (X : forall x, has (put p (Sub p k l) t) x <-> has t x \/ x = Sub p k l).
      { intro x. unfold has. split.
        - intro H. apply in_put in H as [H|H]; [right; congruence|now left].
        - intros [H| ->]; [|apply put_in_new]. destruct (Nat.eq_dec (ptr_of x) p) as [Ep|Np].
          + destruct (O1 _ _ H) as [_ Ox]. assert (x = Sub p k l) by (apply One; assumption). subst x.
            apply put_in_new.
          + now apply put_in_old. }
      split.
      { intros q s' H. apply in_put in H as [H|H]; [injection H as -> ->; now split|now apply O1]. }
      split.
      { intros s' H x Hx. apply X. apply X in H as [H| ->].
        - left. now apply (C1 s').
        - left. apply E1. now right. }
      intro x. rewrite X, E1. tauto.
  Qed.
  Lemma collects_expr l : (forall s, In s l -> occurs e s) -> collects (resolve_expr l) (occurs l).
  Proof. intros H. apply collects_list; [|exact H]. apply Forall_forall. intros s _. apply collects_sub. Qed.

  (** ** Sub-trees of a round *)
  Definition keyed (tmp : list (nat * sub)) (k : nat) := exists s, has tmp s /\ key_of s = k.
  Lemma trees_ok tmp : okt tmp ->
    NoDup (map fst (sub_trees tmp)) /\
    (forall k, In k (map fst (sub_trees tmp)) <-> keyed tmp k) /\
    (forall k t, In (k, t) (sub_trees tmp) -> exists s, has tmp s /\ key_of s = k /\ inner_of s = t).
  Proof.
    intro Hok. unfold sub_trees.
    set (g := fun m (ts : nat * sub) => match look (key_of (snd ts)) m with
      None => put (key_of (snd ts)) (inner_of (snd ts)) m | Some _ => m end).
    assert (G : forall todo m, (forall x, In x todo -> In x tmp) -> NoDup (map fst m) ->
      (forall k t, In (k, t) m -> exists s, has tmp s /\ key_of s = k /\ inner_of s = t) ->
      NoDup (map fst (fold_left g todo m)) /\
      (forall k t, In (k, t) (fold_left g todo m) -> exists s, has tmp s /\ key_of s = k /\ inner_of s = t) /\
      (forall k, In k (map fst m) \/ In k (map (fun ts => key_of (snd ts)) todo) -> In k (map fst (fold_left g todo m)))).
    { induction todo as [|[p s] todo IH]; intros m Hin N R; cbn [fold_left map].
      - repeat split; auto. intros k [H|[]]; assumption.
      - assert (Hs : has tmp s).
        { unfold has. destruct (Hok p s) as [-> _]; [apply Hin; now left|]. apply Hin. now left. }
        destruct (look (key_of s) m) as [t|] eqn:E.
        + assert (Eg : g m (p, s) = m) by (unfold g; cbn [snd]; now rewrite E). rewrite Eg.
          destruct (IH m (fun x H => Hin x (or_intror H)) N R) as (A & B & C). repeat split; auto.
          intros k [H|[H|H]]; [apply C; now left| |apply C; now right]. cbn [snd] in H. apply C. left.
          subst k. apply look_in in E. apply in_map_iff. now exists (key_of s, t).
        + assert (Eg : g m (p, s) = put (key_of s) (inner_of s) m) by (unfold g; cbn [snd]; now rewrite E). rewrite Eg.
          destruct (IH (put (key_of s) (inner_of s) m) (fun x H => Hin x (or_intror H))) as (A & B & C).
          * now apply put_nodup.
          * intros k t H. apply in_put in H as [H|H]; [|auto]. injection H as -> ->. now exists s.
          * repeat split; auto. intros k [H|[H|H]]; [| |apply C; now right].
            -- apply C. left. apply in_map_iff in H as ([j t] & H1 & H2). cbn [fst] in H1. subst j.
               apply in_map_iff. exists (k, t). split; [reflexivity|]. apply put_in_old; [assumption|].
               cbn [fst]. intros ->. apply look_none in E. apply E. apply in_map_iff. now exists (key_of s, t).
            -- cbn [snd] in H. subst k. apply C. left. apply in_map_iff. exists (key_of s, inner_of s).
               split; [reflexivity|]. apply put_in_new. }
    destruct (G tmp [] (fun x H => H) (NoDup_nil _) (fun k t H => match H with end)) as (A & B & C).
    split; [exact A|]. split; [|exact B]. intro k. split.
    - intro H. apply in_map_iff in H as ([j t] & H1 & H2). cbn [fst] in H1. subst j.
      destruct (B k t H2) as (s & X & Y & _). now exists s.
    - intros (s & X & Y). apply C. right. apply in_map_iff. now exists (ptr_of s, s).
  Qed.

  (** ** Moving to the end *)
  Definition mv (k : nat) (l : list nat) := remove Nat.eq_dec k l ++ [k].
  Definition earlier (u v : nat) (l : list nat) := exists a b, l = a ++ u :: b /\ In v b.
  Lemma mv_in k l x : In x (mv k l) <-> x = k \/ In x l.
  Proof.
    unfold mv. rewrite in_app_iff. cbn [In]. split.
    - intros [H|[H|[]]]; [right; now apply in_remove in H|now left].
    - intros [H|H]; [right; now left|]. destruct (Nat.eq_dec x k); [right; left; congruence|left; now apply in_in_remove].
  Qed.
  Lemma mv_earlier k l u v : u <> k -> earlier u v l -> earlier u v (mv k l).
  Proof.
    intros N (a & b & -> & Hv). exists (remove Nat.eq_dec k a), (mv k b). split.
    - unfold mv. rewrite remove_app. cbn [remove]. destruct (Nat.eq_dec k u); [congruence|]. now rewrite <- app_assoc.
    - apply mv_in. now right.
  Qed.
  Lemma mv_last k l u : u <> k -> In u l -> earlier u k (mv k l).
  Proof.
    intros N H. apply in_split in H as (a & b & ->). exists (remove Nat.eq_dec k a), (mv k b). split.
    - unfold mv. rewrite remove_app. cbn [remove]. destruct (Nat.eq_dec k u); [congruence|]. now rewrite <- app_assoc.
    - apply mv_in. now left.
  Qed.
  Definition mvs (ks l : list nat) := fold_left (fun l k => mv k l) ks l.
  Lemma mvs_in ks : forall l x, In x (mvs ks l) <-> In x ks \/ In x l.
  Proof.
    induction ks as [|k ks IH]; intros l x; cbn [mvs fold_left In]; [tauto|]. fold (mvs ks (mv k l)).
    rewrite IH, mv_in. intuition.
  Qed.
  Lemma mvs_earlier ks : forall l u v, ~ In u ks -> earlier u v l -> earlier u v (mvs ks l).
  Proof.
    induction ks as [|k ks IH]; intros l u v N H; cbn [mvs fold_left In] in *; [assumption|]. fold (mvs ks (mv k l)).
    apply IH; [tauto|]. apply mv_earlier; [intros ->; tauto|assumption].
  Qed.
  Lemma mvs_last ks : forall l u v, ~ In u ks -> In u l -> In v ks -> earlier u v (mvs ks l).
  Proof.
    induction ks as [|k ks IH]; intros l u v N Hu Hv; cbn [mvs fold_left In] in *; [destruct Hv|]. fold (mvs ks (mv k l)).
    destruct Hv as [-> | Hv].
    - apply mvs_earlier; [tauto|]. apply mv_last; [intros ->; tauto|assumption].
    - apply IH; [tauto| |assumption]. apply mv_in. now right.
  Qed.

  (** ** The positions *)
  Definition pos_ok (subs : list (nat * list sub)) (used : list (nat * nat)) :=
    NoDup (map fst subs) /\ forall k i, look k used = Some i <-> nth_error (map fst subs) i = Some k.
  Lemma look_shift old used k : look k (shift_down old used) = option_map (fun i => if old <=? i then i - 1 else i) (look k used).
  Proof.
    induction used as [|[j i] u IH]; [reflexivity|]. cbn [shift_down map look fst snd].
    destruct (k =? j); [reflexivity|]. exact IH.
  Qed.
  Lemma nodup_snoc (l : list nat) x : NoDup l -> ~ In x l -> NoDup (l ++ [x]).
  Proof.
    induction l as [|y l IH]; intros N H; cbn [app]; [constructor; [intros []|constructor]|].
    inversion N as [|? ? N1 N2]; subst. constructor.
    - intro X. apply in_app_iff in X as [X|[X|[]]]; [contradiction|]. subst y. apply H. now left.
    - apply IH; [assumption|]. intro X. apply H. now right.
  Qed.
  Lemma nth_ex {A} (l : list A) : forall i, i < List.length l -> exists x, nth_error l i = Some x.
  Proof. intros i H. destruct (nth_error l i) eqn:E; [eauto|]. apply nth_error_None in E. lia. Qed.
  Lemma remove_mid k a b : NoDup (a ++ k :: b) -> remove Nat.eq_dec k (a ++ k :: b) = a ++ b.
  Proof.
    intro N. rewrite remove_app. cbn [remove]. destruct (Nat.eq_dec k k); [|congruence].
    assert (X : ~ In k (a ++ b)) by (now apply NoDup_remove_2 in N). rewrite !notin_remove; [reflexivity| |];
      intro H; apply X; apply in_app_iff; auto.
  Qed.

  Lemma visit_ok tmp subs used key t : pos_ok subs used ->
    exists subs' used', visit (tmp, subs, used) (key, t) = Ok (resolve_expr t tmp, subs', used') /\ pos_ok subs' used' /\
      map fst subs' = mv key (map fst subs) /\ (forall x, In x subs' -> In x subs \/ x = (key, t)).
  Proof.
    intros [N P]. unfold visit. destruct (look key used) as [old|] eqn:E.
    - pose proof (proj1 (P key old) E) as E1.
      assert (E2 : exists x, nth_error subs old = Some (key, x)).
      { rewrite nth_error_map in E1. destruct (nth_error subs old) as [[k x]|]; [|discriminate]. injection E1 as ->. eauto. }
      destruct E2 as (x & E2). rewrite E2. apply nth_error_split in E2 as (a & b & -> & L).
      rewrite app_length. cbn [List.length].
      rewrite map_app in *. cbn [map fst] in *.
      destruct (old =? List.length a + S (List.length b) - 1) eqn:El.
      + apply Nat.eqb_eq in El. assert (b = []) by (destruct b; [reflexivity|cbn [List.length] in El; lia]). subst b.
        exists (a ++ [(key, x)]), used. split; [reflexivity|]. split; [split; rewrite map_app; assumption|]. split; [|auto].
        rewrite map_app. cbn [map fst]. unfold mv. rewrite remove_mid by assumption. now rewrite app_nil_r.
      + apply Nat.eqb_neq in El.
        exists (a ++ b ++ [(key, x)]), (put key (List.length a + S (List.length b) - 1) (shift_down old used)). subst old.
        assert (F1 : firstn (List.length a) (a ++ (key, x) :: b) = a)
          by (rewrite firstn_app, Nat.sub_diag, firstn_all, firstn_O; apply app_nil_r).
        assert (F2 : skipn (S (List.length a)) (a ++ (key, x) :: b) = b).
        { rewrite skipn_app, skipn_all2 by lia. replace (S (List.length a) - List.length a) with 1 by lia. reflexivity. }
        rewrite F1, F2. split; [reflexivity|].
        assert (M : map fst (a ++ b ++ [(key, x)]) = map fst a ++ map fst b ++ [key]) by (rewrite !map_app; reflexivity).
        assert (Mv : mv key (map fst a ++ key :: map fst b) = map fst a ++ map fst b ++ [key])
          by (unfold mv; rewrite remove_mid by assumption; now rewrite app_assoc).
        assert (La : List.length (map fst a) = List.length a) by apply map_length.
        assert (Lb : List.length (map fst b) = List.length b) by apply map_length.
        split; [|split].
        * split.
          -- rewrite M. apply NoDup_remove in N as [N1 N2]. rewrite app_assoc.
             now apply nodup_snoc.
          -- intros k i. rewrite look_put, M. destruct (k =? key) eqn:Ek.
             ++ apply Nat.eqb_eq in Ek. subst k. split.
                ** intro H. assert (i = List.length a + S (List.length b) - 1) by congruence. subst i.
                   rewrite nth_error_app2, nth_error_app2 by lia.
                   replace (_ - _) with 0 by lia. reflexivity.
                ** intro H. f_equal. destruct (Nat.lt_ge_cases i (List.length a + List.length b)) as [Hi|Hi].
                   --- exfalso. rewrite app_assoc, nth_error_app1 in H by (rewrite app_length; lia).
                       apply nth_error_In in H. now apply NoDup_remove_2 in N.
                   --- assert (i < List.length (map fst a ++ map fst b ++ [key])) by (apply nth_error_Some; congruence).
                       rewrite !app_length in H0. cbn [List.length] in H0. lia.
             ++ apply Nat.eqb_neq in Ek. rewrite look_shift. split.
                ** intro H. destruct (look k used) as [j|] eqn:Ej; [|discriminate]. apply P in Ej. cbn [option_map] in H.
                   destruct (List.length a <=? j) eqn:Eo.
                   --- apply Nat.leb_le in Eo. assert (i = j - 1) by congruence. subst i.
                       assert (Hj : j <> List.length a).
                       { intros ->. rewrite nth_error_app2, La, Nat.sub_diag in Ej by lia. cbn [nth_error] in Ej. congruence. }
                       rewrite nth_error_app2 in Ej |- * by lia. rewrite La in *.
                       replace (j - List.length a) with (S (j - 1 - List.length a)) in Ej by lia. cbn [nth_error] in Ej.
                       rewrite nth_error_app1; [exact Ej|]. apply nth_error_Some. congruence.
                   --- apply Nat.leb_gt in Eo. assert (i = j) by congruence. subst i.
                       rewrite nth_error_app1 in Ej |- * by lia. exact Ej.
                ** intro H. assert (X : exists j, nth_error (map fst a ++ key :: map fst b) j = Some k /\
                     i = if List.length a <=? j then j - 1 else j).
                   { destruct (Nat.lt_ge_cases i (List.length a)) as [Hi|Hi].
                     - exists i. rewrite nth_error_app1 in H |- * by lia. split; [exact H|].
                       destruct (List.length a <=? i) eqn:Eo; [apply Nat.leb_le in Eo; lia|reflexivity].
                     - exists (S i). rewrite nth_error_app2 in H |- * by lia. rewrite La in *.
                       replace (S i - List.length a) with (S (i - List.length a)) by lia. cbn [nth_error].
                       destruct (List.length a <=? S i) eqn:Eo; [|apply Nat.leb_gt in Eo; lia]. split; [|lia].
                       destruct (Nat.lt_ge_cases (i - List.length a) (List.length b)) as [Hb|Hb].
                       + rewrite nth_error_app1 in H by lia. exact H.
                       + exfalso. rewrite nth_error_app2 in H by lia.
                         destruct (i - List.length a - List.length (map fst b)) as [|n]; cbn [nth_error] in H; [congruence|].
                         destruct n; discriminate. }
                   destruct X as (j & Hj & ->). apply P in Hj. now rewrite Hj.
        * now rewrite M, Mv.
        * intros y Hy. left. rewrite !in_app_iff in *. cbn [In] in *. tauto.
    - exists (subs ++ [(key, t)]), (put key (List.length subs) used). split; [reflexivity|].
      assert (Nk : ~ In key (map fst subs)).
      { intro H. apply In_nth_error in H as (i & H). apply P in H. congruence. }
      assert (M : map fst (subs ++ [(key, t)]) = map fst subs ++ [key]) by (rewrite map_app; reflexivity).
      assert (L : List.length (map fst subs) = List.length subs) by apply map_length.
      split; [split|split].
      + rewrite M. now apply nodup_snoc.
      + intros k i. rewrite look_put, M. destruct (k =? key) eqn:Ek.
        * apply Nat.eqb_eq in Ek. subst k. split.
          -- intro H. assert (i = List.length subs) by congruence. subst i.
             rewrite nth_error_app2, L, Nat.sub_diag by lia. reflexivity.
          -- intro H. f_equal. destruct (Nat.lt_ge_cases i (List.length subs)) as [Hi|Hi].
             ++ rewrite nth_error_app1 in H by lia. apply nth_error_In in H. contradiction.
             ++ assert (i < List.length (map fst subs ++ [key])) by (apply nth_error_Some; congruence).
                rewrite app_length in H0. cbn [List.length] in H0. lia.
        * apply Nat.eqb_neq in Ek. rewrite P. split; intro H.
          -- rewrite nth_error_app1; [exact H|]. apply nth_error_Some. congruence.
          -- destruct (Nat.lt_ge_cases i (List.length subs)) as [Hi|Hi]; [rewrite nth_error_app1 in H by lia; exact H|].
             rewrite nth_error_app2 in H by lia. destruct (i - List.length (map fst subs)) as [|n]; cbn [nth_error] in H; [congruence|].
             destruct n; discriminate.
      + rewrite M. unfold mv. now rewrite notin_remove.
      + intros y Hy. apply in_app_iff in Hy as [Hy|[Hy|[]]]; auto.
  Qed.

  Lemma visits_ok l : forall tmp subs used, pos_ok subs used ->
    exists subs' used', visits (tmp, subs, used) l = Ok (fold_left (fun t kt => resolve_expr (snd kt) t) l tmp, subs', used') /\
      pos_ok subs' used' /\ map fst subs' = mvs (map fst l) (map fst subs) /\ (forall x, In x subs' -> In x subs \/ In x l).
  Proof.
    induction l as [|[k t] l IH]; intros tmp subs used P.
    - exists subs, used. cbn. auto.
    - destruct (visit_ok tmp subs used k t P) as (s1 & u1 & E1 & P1 & M1 & I1).
      destruct (IH (resolve_expr t tmp) s1 u1 P1) as (s2 & u2 & E2 & P2 & M2 & I2).
      exists s2, u2. cbn [visits]. rewrite E1. cbn [bind]. rewrite E2. split; [reflexivity|]. split; [assumption|].
      split; [rewrite M2, M1; reflexivity|]. intros x Hx. destruct (I2 x Hx) as [H|H]; [|right; now right].
      destruct (I1 x H) as [H'|H']; [auto|right; left; congruence].
  Qed.

  Lemma collects_trees l : (forall k t, In (k, t) l -> forall s, In s t -> occurs e s) ->
    collects (fun tmp => fold_left (fun t (kt : nat * list sub) => resolve_expr (snd kt) t) l tmp) (fun x => exists (k : nat) t, In (k, t) l /\ occurs t x).
  Proof.
    induction l as [|[k t] l IH]; intros Ho tmp Hok Hc; cbn [fold_left].
    - split; [assumption|]. split; [assumption|]. intro x. split; [auto|]. intros [H|(k & t & [] & _)]; assumption.
    - cbn [snd]. destruct (collects_expr t (fun s H => Ho k t (or_introl eq_refl) s H) tmp Hok Hc) as (O1 & C1 & E1).
      destruct (IH (fun k' t' H => Ho k' t' (or_intror H)) _ O1 C1) as (O2 & C2 & E2).
      split; [exact O2|]. split; [exact C2|]. intro x. rewrite E2, E1. split.
      + intros [[H|H]|(k' & t' & H & H')]; [auto| |].
        * right. exists k, t. split; [now left|assumption].
        * right. exists k', t'. split; [now right|assumption].
      + intros [H|(k' & t' & [H|H] & H')]; [auto| |].
        * injection H as <- <-. auto.
        * right. exists k', t'. auto.
  Qed.

  (** ** The rounds *)
  Definition edge (u v : nat) := exists s, occurs e s /\ key_of s = u /\ In v (map key_of (inner_of s)).
  Definition stands (k : nat) (t : list sub) := exists s, occurs e s /\ key_of s = k /\ inner_of s = t.
  Record inv (tmp : list (nat * sub)) (subs : list (nat * list sub)) (used : list (nat * nat)) : Prop := {
    i_ok : okt tmp;
    i_closed : closed tmp;
    i_pos : pos_ok subs used;
    i_all : forall s, occurs e s -> In (key_of s) (map fst subs) \/ keyed tmp (key_of s);
    i_only : forall k t, In (k, t) subs -> stands k t;
    i_edge : forall u v, edge u v -> earlier u v (map fst subs) \/ keyed tmp v }.

  Lemma okt_nil : okt []. Proof. intros p s []. Qed.
  Lemma closed_nil : closed []. Proof. intros s []. Qed.
  Lemma edge_occurs u v : edge u v -> exists s, occurs e s /\ key_of s = v.
  Proof.
    intros (s & Ho & _ & Hv). apply in_map_iff in Hv as (s' & Hk & Hi). exists s'. split; [|assumption].
    eapply occurs_trans; [exact Ho|]. now constructor.
  Qed.

  Lemma rounds_ok : forall h fuel tmp subs used, inv tmp subs used -> (forall s, has tmp s -> height s <= h) -> h < fuel ->
    exists l, rounds fuel (tmp, subs, used) = Ok l /\ exists used', inv [] l used'.
  Proof.
    induction h as [|h IH]; intros fuel tmp subs used [Hok Hc Hp Ha Ho He] Hh Hf; (destruct fuel as [|fuel]; [lia|]); cbn [rounds];
      destruct (trees_ok tmp Hok) as (T1 & T2 & T3).
    - assert (E : sub_trees tmp = []).
      { destruct (sub_trees tmp) as [|[k t] r]; [reflexivity|]. exfalso. destruct (proj1 (T2 k)) as (s & X & _); [now left|].
        apply Hh in X. pose proof (height_pos s). lia. }
      rewrite E in *. cbn [visits bind fst snd]. exists subs. split; [reflexivity|]. exists used.
      assert (Z : forall k, ~ keyed tmp k) by (intros k H; apply T2 in H; destruct H).
      constructor; [apply okt_nil|apply closed_nil|assumption| |assumption|].
      + intros s Hs. destruct (Ha s Hs) as [H|H]; [auto|]. now apply Z in H.
      + intros u v Huv. destruct (He u v Huv) as [H|H]; [auto|]. now apply Z in H.
    - destruct (visits_ok (sub_trees tmp) [] subs used Hp) as (subs' & used' & V & P' & M' & I').
      rewrite V. cbn [bind].
      assert (Hu : forall k t, In (k, t) (sub_trees tmp) -> forall s, In s t -> occurs e s).
      { intros k t H s Hs. destruct (T3 k t H) as (x & X1 & X2 & X3). destruct (Hok _ _ X1) as [_ X4].
        eapply occurs_trans; [exact X4|]. rewrite X3. now constructor. }
      destruct (collects_trees (sub_trees tmp) Hu [] okt_nil closed_nil) as (O2 & C2 & E2). cbv beta in O2, C2, E2.
      set (tmp' := fold_left _ (sub_trees tmp) []) in *.
      assert (J : inv tmp' subs' used').
      { constructor; auto.
        - intros s Hs. left. rewrite M'. apply mvs_in. destruct (Ha s Hs) as [H|H]; [auto|]. left. now apply T2.
        - intros k t H. destruct (I' _ H) as [H'|H']; [auto|]. destruct (T3 k t H') as (s & X1 & X2 & X3).
          exists s. destruct (Hok _ _ X1). auto.
        - intros u v Huv. destruct (in_dec Nat.eq_dec u (map fst (sub_trees tmp))) as [Hin|Hout].
          + right. destruct Huv as (s & Hs & Hk & Hv). apply in_map_iff in Hin as ([k t] & Hk' & Hin). cbn [fst] in Hk'. subst k.
            destruct (T3 _ _ Hin) as (x & X1 & X2 & X3). destruct (Hok _ _ X1) as [_ X4].
            assert (Hv' : In v (map key_of t)) by (rewrite <- X3; apply (NoColl s x Hs X4); [congruence|assumption]).
            apply in_map_iff in Hv' as (y & Hy1 & Hy2). exists y. split; [|assumption]. apply E2. right. exists u, t.
            split; [assumption|now constructor].
          + left. rewrite M'. destruct (He u v Huv) as [H|H]; [now apply mvs_earlier|].
            apply mvs_last; [assumption| |now apply T2].
            destruct Huv as (s & Hs & Hk & Hv). destruct (Ha s Hs) as [H'|H']; [congruence|].
            exfalso. apply Hout. apply T2. congruence. }
      destruct (sub_trees tmp) as [|[k0 t0] r] eqn:Et.
      + cbn [fst snd]. exists subs'. split; [reflexivity|]. exists used'.
        assert (Z : forall k, ~ keyed tmp' k).
        { intros k (s & X & _). apply E2 in X as [[]|(k' & t' & [] & _)]. }
        destruct J as [j1 j2 j3 j4 j5 j6]. constructor; [apply okt_nil|apply closed_nil|assumption| |assumption|].
        * intros s Hs. destruct (j4 s Hs) as [H|H]; [auto|]. now apply Z in H.
        * intros u v Huv. destruct (j6 u v Huv) as [H|H]; [auto|]. now apply Z in H.
      + apply IH; [exact J| |lia]. intros s Hs. apply E2 in Hs as [[]|(k & t & Hin & Hoc)].
        destruct (T3 _ _ Hin) as (x & X1 & X2 & X3). apply Hh in X1. apply height_occurs in Hoc.
        destruct x as [p k' l']. cbn [inner_of] in X3. subst l'. cbn [height] in X1. lia.
  Qed.

  Theorem ordered_good fuel : list_max (map height e) < fuel -> exists l, ordered fuel e = Ok l /\ good_order e l.
  Proof.
    intro Hf. unfold ordered.
    destruct (collects_expr e (fun s H => occurs_here e s H) [] okt_nil closed_nil) as (O & C & E).
    assert (J : inv (resolve_expr e []) [] []).
    { constructor; auto.
      - split; [constructor|]. intros k i. split; [discriminate|]. now destruct i.
      - intros s Hs. right. exists s. split; [apply E; now right|reflexivity].
      - intros k t [].
      - intros u v Huv. right. destruct (edge_occurs _ _ Huv) as (s & H1 & H2). exists s. split; [apply E; now right|assumption]. }
    destruct (rounds_ok (list_max (map height e)) fuel _ _ _ J) as (l & R & used' & J').
    - intros s Hs. apply E in Hs as [[]|Hs]. now apply height_occurs.
    - lia.
    - rewrite R. cbn [bind]. exists (rev l). split; [reflexivity|].
      destruct J' as [_ _ [N P] Ha Ho He].
      assert (Z : forall k, ~ keyed [] k) by (intros k (s & [] & _)).
      repeat split.
      + rewrite map_rev. now apply NoDup_rev.
      + intro H. rewrite map_rev in H. apply in_rev in H. apply in_map_iff in H as ([j t] & H1 & H2). cbn [fst] in H1. subst j.
        destruct (Ho k t H2) as (s & X & Y & _). now exists s.
      + intros (s & Hs & <-). rewrite map_rev. apply in_rev. rewrite rev_involutive.
        destruct (Ha s Hs) as [H|H]; [assumption|]. now apply Z in H.
      + intros k t H. apply in_rev in H. now apply Ho.
      + intros before k t after El s Hs.
        assert (El' : l = rev after ++ (k, t) :: rev before).
        { rewrite <- (rev_involutive l), El, rev_app_distr. cbn [rev]. now rewrite <- app_assoc. }
        assert (Hst : stands k t) by (apply Ho; rewrite El'; apply in_app_iff; right; now left).
        destruct Hst as (x & X1 & X2 & X3).
        destruct (He k (key_of s)) as [(a & b & Eab & Hb)|H]; [| |now apply Z in H].
        { exists x. repeat split; auto. rewrite X3. now apply in_map. }
        rewrite El' in Eab, N. rewrite map_app in Eab, N. cbn [map fst] in Eab, N.
        assert (Eb : map fst (rev before) = b).
        { clear - Eab N. revert a Eab. induction (map fst (rev after)) as [|z r IHr]; intros a Eab.
          - destruct a as [|y a]; [cbn in Eab; congruence|]. exfalso. cbn [app] in *. injection Eab as -> Eab.
            inversion N as [|? ? N1 N2]; subst. apply N1. rewrite Eab. apply in_app_iff. right. now left.
          - cbn [app] in *. inversion N as [|? ? N1 N2]; subst. destruct a as [|y a]; cbn [app] in Eab.
            + exfalso. injection Eab as -> Eab. apply N1. apply in_app_iff. right. now left.
            + injection Eab as -> Eab. exact (IHr N2 a Eab). }
        rewrite <- Eb in Hb. rewrite map_rev in Hb. now apply in_rev in Hb.
  Qed.
End Universe.
