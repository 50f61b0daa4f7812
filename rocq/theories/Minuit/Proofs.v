From Verif.Common Require Import Prelude Writes.
From Verif.Enum Require Model Spec Proofs.
From Verif.Minuit Require Import Model Spec.

Section Proofs.
  Variables (D : Type) (zero m9999 : D) (num : str -> option D).
  Notation pset := (pset D).
  Notation param := (param D).

  Lemma key_find_app k m n : key_find k (m ++ n) = match key_find k m with Some a => Some a | None => key_find k n end.
  Proof. induction m as [|[k' v] m IH]; simpl; [reflexivity|]. destruct (str_eqb k k'); [reflexivity|exact IH]. Qed.

  Lemma key_find_erase k k' m : key_find k (key_erase k' m) = if str_eqb k k' then None else key_find k m.
  Proof.
    induction m as [|[k2 v] m IH]; simpl; [now destruct (str_eqb k k')|].
    destruct (str_eqb_spec k' k2) as [->|N]; simpl.
    - rewrite IH. destruct (str_eqb k k2); reflexivity.
    - rewrite IH. destruct (str_eqb_spec k k2) as [->|]; [|reflexivity].
      destruct (str_eqb_spec k2 k'); [congruence|reflexivity].
  Qed.

  Lemma deref_ok (s : pset) a p : deref D s a = Ok p <-> nth_error (heap D s) a = Some p.
  Proof. unfold deref. destruct (nth_error (heap D s) a); simpl; split; congruence. Qed.

  Lemma deref_app (s : pset) q a p : deref D s a = Ok p -> deref D (with_heap D (heap D s ++ [q]) s) a = Ok p.
  Proof.
    rewrite !deref_ok. simpl. intro H. rewrite nth_error_app1; [exact H|]. apply nth_error_Some. congruence.
  Qed.

  (** ** Adding *)
  Lemma add_fresh (s : pset) p : find D (name D p) s = None -> add_new D p s = Ok (true,
    {| heap := heap D s ++ [p]; vec := vec D s ++ [List.length (heap D s)];
       keys := keys D s ++ [(name D p, List.length (heap D s))]; mapping := mapping D s |}).
  Proof.
    intro H. unfold add_new, alloc, addToEnd, deref. cbn [with_heap heap vec keys mapping].
    rewrite nth_error_app2, Nat.sub_diag by lia. cbn [nth_error of_opt bind]. unfold find in H. now rewrite H.
  Qed.

  Lemma add_any (s : pset) p : exists b ks, add_new D p s = Ok (b,
    {| heap := heap D s ++ [p]; vec := vec D s ++ [List.length (heap D s)]; keys := ks; mapping := mapping D s |}).
  Proof.
    unfold add_new, alloc, addToEnd, deref. cbn [with_heap heap vec keys mapping].
    rewrite nth_error_app2, Nat.sub_diag by lia. cbn [nth_error of_opt bind].
    destruct (key_find (name D p) (keys D s)); eexists; eexists; reflexivity.
  Qed.

  Lemma consistent_add (s s' : pset) b p : consistent D s -> find D (name D p) s = None ->
    add_new D p s = Ok (b, s') -> consistent D s'.
  Proof.
    intros (H1 & H2 & H3) Hf E. rewrite (add_fresh s p Hf) in E. injection E as <- <-.
    set (s' := {| heap := _ |}). set (a0 := List.length (heap D s)).
    assert (Hold : forall a p', deref D s a = Ok p' -> deref D s' a = Ok p') by (intros a p' H; exact (deref_app s p a p' H)).
    assert (Hnew : deref D s' a0 = Ok p).
    { apply deref_ok. unfold s'. cbn [heap]. rewrite nth_error_app2 by (unfold a0; lia). unfold a0. now rewrite Nat.sub_diag. }
    assert (Hat : forall i a, at_ D i s' = Some a -> at_ D i s = Some a \/ (i = List.length (vec D s) /\ a = a0)).
    { intros i a E. unfold at_, s' in E. cbn [vec] in E. destruct (Nat.lt_ge_cases i (List.length (vec D s))) as [L|L].
      - rewrite nth_error_app1 in E by assumption. now left.
      - rewrite nth_error_app2 in E by assumption. right. destruct (i - List.length (vec D s)) as [|d] eqn:Ed.
        + simpl in E. injection E as <-. split; [lia|reflexivity].
        + simpl in E. destruct d; discriminate. }
    assert (Hat2 : forall i a, at_ D i s = Some a -> at_ D i s' = Some a).
    { intros i a E. unfold at_, s' in *. cbn [vec]. rewrite nth_error_app1; [exact E|]. apply nth_error_Some. congruence. }
    assert (Hfind : forall k, find D k s' = match find D k s with Some a => Some a | None => if str_eqb k (name D p) then Some a0 else None end).
    { intro k. unfold find, s'. cbn [keys]. now rewrite key_find_app. }
    split; [|split].
    - intros i a E. destruct (Hat i a E) as [E'|[-> ->]].
      + destruct (H1 _ _ E') as (p' & Hp & Hk). exists p'. split; [now apply Hold|]. now rewrite Hfind, Hk.
      + exists p. split; [assumption|]. now rewrite Hfind, Hf, str_eqb_refl.
    - intros k a E. rewrite Hfind in E. destruct (find D k s) as [a'|] eqn:Ek.
      + injection E as <-. destruct (H2 _ _ Ek) as (i & p' & Hi & Hp & Hn). exists i, p'. auto.
      + destruct (str_eqb_spec k (name D p)) as [->|]; [|discriminate]. injection E as <-.
        exists (List.length (vec D s)), p. repeat split; [|assumption]. unfold at_, s'. cbn [vec].
        rewrite nth_error_app2, Nat.sub_diag by lia. reflexivity.
    - intros i j a b' p1 p2 Ei Ej Hp1 Hp2 Hn.
      assert (Hne : forall i a q, at_ D i s = Some a -> deref D s' a = Ok q -> name D q = name D p -> False).
      { intros i' a' q Ea Hq Eq. destruct (H1 _ _ Ea) as (q' & Hq' & Hk). rewrite (Hold _ _ Hq') in Hq. injection Hq as <-.
        rewrite Eq in Hk. congruence. }
      destruct (Hat _ _ Ei) as [Ei'|[-> ->]], (Hat _ _ Ej) as [Ej'|[-> ->]].
      + destruct (H1 _ _ Ei') as (q1 & Hq1 & _), (H1 _ _ Ej') as (q2 & Hq2 & _).
        rewrite (Hold _ _ Hq1) in Hp1. rewrite (Hold _ _ Hq2) in Hp2. injection Hp1 as <-. injection Hp2 as <-. eauto.
      + rewrite Hnew in Hp2. injection Hp2 as <-. exfalso. eauto.
      + rewrite Hnew in Hp1. injection Hp1 as <-. exfalso. eapply Hne; eauto.
      + reflexivity.
  Qed.

  (** ** Changing an object *)
  Lemma modify_ok (f : param -> param) a (s : pset) p : deref D s a = Ok p -> exists h,
    modify D f a s = Ok (with_heap D h s) /\ forall b, nth_error h b = if Nat.eqb b a then Some (f p) else nth_error (heap D s) b.
  Proof.
    intro H. unfold modify. rewrite H. cbn [bind]. apply deref_ok in H.
    destruct (set_at_Some a (f p) (heap D s)) as (h & E & _ & Hh). { apply nth_error_Some. congruence. }
    exists h. rewrite E. split; [reflexivity|exact Hh].
  Qed.

  Lemma modify_deref (f : param -> param) a (s s' : pset) p : deref D s a = Ok p -> modify D f a s = Ok s' ->
    vec D s' = vec D s /\ keys D s' = keys D s /\ mapping D s' = mapping D s /\
    forall b, deref D s' b = if Nat.eqb b a then Ok (f p) else deref D s b.
  Proof.
    intros H E. destruct (modify_ok f a s p H) as (h & E' & Hh). rewrite E in E'. injection E' as ->.
    repeat split. intro b. unfold deref. cbn [with_heap heap]. rewrite Hh. destruct (Nat.eqb b a); reflexivity.
  Qed.

  Lemma consistent_modify (f : param -> param) a (s s' : pset) : (forall p, name D (f p) = name D p) ->
    consistent D s -> modify D f a s = Ok s' -> consistent D s'.
  Proof.
    intros Hf (H1 & H2 & H3) E. destruct (deref D s a) as [p| | |] eqn:Ea; try (unfold modify in E; rewrite Ea in E; discriminate).
    destruct (modify_deref f a s s' p Ea E) as (Hv & Hk & _ & Hd).
    assert (G : forall b q, deref D s b = Ok q -> exists q', deref D s' b = Ok q' /\ name D q' = name D q).
    { intros b q Hq. rewrite Hd. destruct (Nat.eqb_spec b a) as [->|]; [|eauto]. rewrite Ea in Hq. injection Hq as <-. eauto. }
    assert (G' : forall b q', deref D s' b = Ok q' -> exists q, deref D s b = Ok q /\ name D q' = name D q).
    { intros b q' Hq. rewrite Hd in Hq. destruct (Nat.eqb_spec b a) as [->|]; [|eauto]. injection Hq as <-. eauto. }
    unfold consistent, at_, find in *. rewrite Hv, Hk. split; [|split].
    - intros i b Hi. destruct (H1 _ _ Hi) as (q & Hq & Hn). destruct (G _ _ Hq) as (q' & Hq' & En). exists q'. now rewrite En.
    - intros k b Hb. destruct (H2 _ _ Hb) as (i & q & Hi & Hq & Hn). destruct (G _ _ Hq) as (q' & Hq' & En). exists i, q'.
      repeat split; congruence.
    - intros i j b c q1 q2 Hi Hj Hq1 Hq2 En. destruct (G' _ _ Hq1) as (r1 & Hr1 & E1), (G' _ _ Hq2) as (r2 & Hr2 & E2).
      apply (H3 i j b c r1 r2); congruence.
  Qed.

  Lemma consistent_rename k k' (s s' : pset) b : consistent D s -> rename D k k' s = Ok (b, s') -> consistent D s'.
  Proof.
    intros HC E. unfold rename in E. destruct (find D k s) as [a|] eqn:Ea; [|injection E as <- <-; exact HC].
    destruct (str_eqb_spec k k') as [->|Nk]; [injection E as <- <-; exact HC|].
    destruct (find D k' s) as [a'|] eqn:Ea'; [injection E as <- <-; exact HC|].
    destruct HC as (H1 & H2 & H3). destruct (H2 _ _ Ea) as (i0 & p0 & Hi0 & Hp0 & Hn0).
    destruct (modify_ok (setName D k') a s p0 Hp0) as (h & E' & _). rewrite E' in E. cbn [bind] in E.
    destruct (modify_deref _ _ _ _ _ Hp0 E') as (_ & _ & _ & Hd). injection E as <- <-. set (s' := {| heap := _ |}).
    assert (Hd' : forall c, deref D s' c = if Nat.eqb c a then Ok (setName D k' p0) else deref D s c) by exact Hd.
    assert (Hf : forall x, find D x s' = if str_eqb x k then None else match find D x s with Some c => Some c | None => if str_eqb x k' then Some a else None end).
    { intro x. unfold find, s'. cbn [keys]. rewrite key_find_app, key_find_erase. simpl key_find.
      destruct (str_eqb_spec x k) as [->|]; [|reflexivity]. destruct (str_eqb_spec k k'); [contradiction|reflexivity]. }
    assert (Ha : forall i, at_ D i s' = at_ D i s) by reflexivity.
    assert (Hua : forall i, at_ D i s = Some a -> i = i0).
    { intros i Hi. apply (H3 i i0 a a p0 p0); auto. }
    assert (Hk : forall c q, c <> a -> find D (name D q) s = Some c -> deref D s c = Ok q -> name D q <> k /\ name D q <> k').
    { intros c q Nc Hq _. split; intro K; rewrite K in Hq; congruence. }
    split; [|split].
    - intros i c Hi. rewrite Ha in Hi. destruct (H1 _ _ Hi) as (q & Hq & Hn). rewrite Hd'.
      destruct (Nat.eqb_spec c a) as [->|Nc].
      + exists (setName D k' p0). split; [reflexivity|]. cbn [setName name]. rewrite Hf, Ea', str_eqb_refl.
        destruct (str_eqb_spec k' k); [congruence|reflexivity].
      + exists q. split; [assumption|]. destruct (Hk c q Nc Hn Hq) as [K1 K2]. rewrite Hf, Hn.
        destruct (str_eqb_spec (name D q) k); [contradiction|reflexivity].
    - intros x c Hx. rewrite Hf in Hx. destruct (str_eqb_spec x k) as [->|Nx]; [discriminate|].
      destruct (find D x s) as [c'|] eqn:Ex.
      + injection Hx as <-. destruct (H2 _ _ Ex) as (i & q & Hi & Hq & Hn). exists i, q. rewrite Ha, Hd'.
        destruct (Nat.eqb_spec c' a) as [->|]; [|auto]. exfalso. rewrite Hp0 in Hq. injection Hq as <-. congruence.
      + destruct (str_eqb_spec x k') as [->|]; [|discriminate]. injection Hx as <-.
        exists i0, (setName D k' p0). rewrite Ha, Hd', Nat.eqb_refl. auto.
    - intros i j c d q r Hi Hj Hq Hr En. rewrite Ha in Hi, Hj. rewrite Hd' in Hq, Hr.
      destruct (Nat.eqb_spec c a) as [->|Nc], (Nat.eqb_spec d a) as [->|Nd].
      + rewrite (Hua i Hi), (Hua j Hj). reflexivity.
      + injection Hq as <-. cbn [setName name] in En. destruct (H1 _ _ Hj) as (r' & Hr' & Hn). rewrite Hr in Hr'. injection Hr' as <-.
        destruct (Hk d r Nd Hn Hr). congruence.
      + injection Hr as <-. cbn [setName name] in En. destruct (H1 _ _ Hi) as (q' & Hq' & Hn). rewrite Hq in Hq'. injection Hq' as <-.
        destruct (Hk c q Nc Hn Hq). congruence.
      + eauto.
  Qed.

  Lemma rename_spec (s s' : pset) k k' : consistent D s -> rename D k k' s = Ok (true, s') ->
    find D k s' = None /\ find D k' s' = find D k s /\ (forall x, x <> k -> x <> k' -> find D x s' = find D x s) /\
    vec D s' = vec D s.
  Proof.
    intros HC E. unfold rename in E. destruct (find D k s) as [a|] eqn:Ea; [|discriminate].
    destruct (str_eqb_spec k k') as [->|Nk]; [discriminate|].
    destruct (find D k' s) as [a'|] eqn:Ea'; [discriminate|].
    destruct HC as (H1 & H2 & H3). destruct (H2 _ _ Ea) as (i0 & p0 & Hi0 & Hp0 & Hn0).
    destruct (modify_ok (setName D k') a s p0 Hp0) as (h & E' & _). rewrite E' in E. cbn [bind] in E. injection E as <-.
    unfold find in *. cbn [keys with_heap vec].
    assert (G : forall x, key_find x (key_erase k (keys D s) ++ [(k', a)]) =
      if str_eqb x k then (if str_eqb x k' then Some a else None) else match key_find x (keys D s) with Some c => Some c | None => if str_eqb x k' then Some a else None end).
    { intro x. rewrite key_find_app, key_find_erase. cbn [key_find]. destruct (str_eqb x k); [reflexivity|]. now destruct (key_find x (keys D s)). }
    rewrite !G. repeat split.
    - rewrite str_eqb_refl. destruct (str_eqb_spec k k'); [contradiction|reflexivity].
    - destruct (str_eqb_spec k' k); [congruence|]. rewrite Ea', str_eqb_refl. reflexivity.
    - intros x N1 N2. rewrite G. destruct (str_eqb_spec x k); [contradiction|]. destruct (str_eqb_spec x k'); [contradiction|].
      now destruct (key_find x (keys D s)).
  Qed.

  Lemma consistent_addOrGet (s s' : pset) p a : consistent D s -> addOrGet D p s = Ok (a, s') ->
    consistent D s' /\ find D (name D p) s' = Some a.
  Proof.
    intros HC E. unfold addOrGet in E. destruct (key_find (name D p) (keys D s)) as [a'|] eqn:Ek.
    - injection E as <- <-. now split.
    - destruct (add_new D p s) as [[b s1]| | |] eqn:Ea; try discriminate. cbn [bind] in E.
      destruct (key_find (name D p) (keys D s1)) as [a'|] eqn:Ek1; [|discriminate]. cbn [of_opt bind] in E. injection E as <- <-.
      split; [|exact Ek1]. now apply (consistent_add s s1 b p).
  Qed.

  (** Every way of building a set: additions under a new name, [addOrGet], renamings, changes of values. *)
  Lemma reachable_consistent s : reachable D s -> consistent D s.
  Proof.
    induction 1 as [|s p b s' _ IH Hf E|s p a s' _ IH E|s k k' b s' _ IH E|s f a s' _ IH Hf E].
    - split; [|split]; unfold at_; simpl; intros; try (destruct i; discriminate). discriminate.
    - now apply (consistent_add s s' b p).
    - now apply (consistent_addOrGet s s' p a).
    - now apply (consistent_rename k k' s s' b).
    - now apply (consistent_modify f a s s').
  Qed.

  Lemma consistent_NoDup (s : pset) : consistent D s -> NoDup (vec D s).
  Proof.
    intros (H1 & _ & H3). apply NoDup_nth_error. intros i j Hi E.
    destruct (nth_error (vec D s) i) as [a|] eqn:Ei; [|apply nth_error_None in Ei; lia].
    destruct (H1 i a Ei) as (p & Hp & _). apply (H3 i j a a p p); auto.
  Qed.

  Lemma consistent_holds (s : pset) : consistent D s -> exists ps, holds D s ps.
  Proof.
    intros (H1 & _ & _). unfold holds.
    assert (G : forall l, (forall a, In a l -> exists p, deref D s a = Ok p) -> exists ps, map (deref D s) l = map Ok ps).
    { induction l as [|a l IH]; intro H; [now exists []|]. destruct (H a (or_introl eq_refl)) as (p & Hp).
      destruct IH as (ps & Hps); [intros; apply H; now right|]. exists (p :: ps). simpl. now rewrite Hp, Hps. }
    apply G. intros a Ha. apply In_nth_error in Ha as (i & Hi). destruct (H1 i a Hi) as (p & Hp & _). eauto.
  Qed.

  Lemma destroy_ok vs : forall deleted, NoDup vs -> (forall a, In a vs -> ~ In a deleted) -> destroy vs deleted = Ok (deleted ++ vs).
  Proof.
    induction vs as [|a vs IH]; intros deleted ND H; cbn [destroy]; [now rewrite app_nil_r|]. inversion ND as [|? ? Ha ND']; subst.
    destruct (existsb (Nat.eqb a) deleted) eqn:E.
    - apply existsb_exists in E as (b & Hb & Eb). apply Nat.eqb_eq in Eb. subst b. exfalso. apply (H a); [now left|assumption].
    - rewrite IH; [now rewrite <- app_assoc|assumption|]. intros b Hb Hin. apply in_app_iff in Hin as [Hin|[->|[]]].
      + apply (H b); [now right|assumption].
      + contradiction.
  Qed.

  (** ** The mapping of the minimiser *)
  Lemma modify_holds (s : pset) pre p ps a f : NoDup (vec D s) -> holds D s (pre ++ p :: ps) ->
    at_ D (List.length pre) s = Some a -> exists s', modify D f a s = Ok s' /\ holds D s' (pre ++ f p :: ps) /\
      vec D s' = vec D s /\ mapping D s' = mapping D s /\ keys D s' = keys D s.
  Proof.
    intros ND H Ha. unfold holds in H. unfold at_ in Ha. apply nth_error_split in Ha as (v1 & v2 & Ev & El).
    rewrite Ev, !map_app in H. cbn [map] in H.
    assert (L : List.length (map (deref D s) v1) = List.length (map Ok pre)) by (rewrite !map_length; exact El).
    assert (H' : map (deref D s) v1 = map Ok pre /\ deref D s a = Ok p /\ map (deref D s) v2 = map Ok ps).
    { clear - H L. revert H L. generalize (map (deref D s) v1) (map (@Ok param) pre). induction l as [|x l IH]; intros [|y l'] H L; simpl in *; try lia.
      - injection H as -> ->. auto.
      - injection H as -> H. destruct (IH l' H ltac:(lia)) as (-> & ? & ?). auto. }
    destruct H' as (Hpre & Hp & Hps). destruct (modify_ok f a s p Hp) as (h & E & _).
    destruct (modify_deref f a s _ p Hp E) as (_ & _ & _ & Hd). exists (with_heap D h s). split; [exact E|]. split; [|auto].
    unfold holds. change (vec D (with_heap D h s)) with (vec D s). rewrite Ev, !map_app. cbn [map].
    rewrite Ev in ND. apply NoDup_remove_2 in ND.
    rewrite Hd, Nat.eqb_refl. f_equal; [|f_equal].
    - rewrite <- Hpre. apply map_ext_in. intros b Hb. rewrite Hd. destruct (Nat.eqb_spec b a) as [->|]; [|reflexivity].
      exfalso. apply ND, in_or_app. now left.
    - rewrite <- Hps. apply map_ext_in. intros b Hb. rewrite Hd. destruct (Nat.eqb_spec b a) as [->|]; [|reflexivity].
      exfalso. apply ND, in_or_app. now right.
  Qed.

  (** Positions of the floating parameters. *)
  Definition floatsb (p : param) : bool := (isFree D p || isBlind D p)%bool.
  Fixpoint positions (i : nat) (ps : list param) : list nat :=
    match ps with [] => [] | p :: t => if floatsb p then i :: positions (S i) t else positions (S i) t end.

  Lemma floatsb_spec p : floatsb p = true <-> floats D p.
  Proof. unfold floatsb, isFree, isBlind, floats, Free, Blind. rewrite orb_true_iff, !Z.eqb_eq. reflexivity. Qed.

  Lemma floating_positions (s : pset) : forall vs ps i, map (deref D s) vs = map Ok ps -> floating_from D i vs s = Ok (positions i ps).
  Proof.
    induction vs as [|a vs IH]; intros [|p ps] i E; try discriminate; [reflexivity|]. simpl in E. injection E as Ea E.
    cbn [floating_from]. rewrite Ea. cbn [bind]. rewrite (IH ps (S i) E). cbn [bind positions]. unfold floatsb.
    destruct (isFree D p || isBlind D p)%bool; reflexivity.
  Qed.

  Lemma positions_bound ps : forall i j, In j (positions i ps) -> i <= j < i + List.length ps.
  Proof.
    induction ps as [|p ps IH]; intros i j H; [destruct H|]. cbn [positions] in H. simpl List.length.
    destruct (floatsb p); [destruct H as [<-|H]; [lia|]|]; apply IH in H; lia.
  Qed.

  Lemma positions_spec ps : forall i j, In j (positions i ps) <-> i <= j /\ exists p, nth_error ps (j - i) = Some p /\ floats D p.
  Proof.
    induction ps as [|p ps IH]; intros i j.
    - simpl. split; [intros []|]. intros (_ & q & E & _). destruct (j - i); discriminate.
    - cbn [positions].
      assert (G : In j (positions (S i) ps) <-> S i <= j /\ exists q, nth_error (p :: ps) (j - i) = Some q /\ floats D q).
      { rewrite IH. split; intros (L & q & E & F); (split; [exact L|]; exists q; split; [|exact F]).
        - replace (j - i) with (S (j - S i)) by lia. exact E.
        - replace (j - i) with (S (j - S i)) in E by lia. exact E. }
      destruct (floatsb p) eqn:Ef.
      + cbn [In]. rewrite G. split.
        * intros [<-|(L & H)]; [|split; [lia|exact H]]. split; [lia|]. exists p. rewrite Nat.sub_diag. split; [reflexivity|now apply floatsb_spec].
        * intros (L & q & E & F). destruct (Nat.eq_dec i j) as [->|N]; [now left|]. right. split; [lia|]. eauto.
      + rewrite G. split; [intros (L & H); split; [lia|exact H]|]. intros (L & q & E & F). destruct (Nat.eq_dec i j) as [->|N].
        * rewrite Nat.sub_diag in E. injection E as <-. apply floatsb_spec in F. congruence.
        * split; [lia|]. eauto.
  Qed.

  Lemma positions_NoDup ps : forall i, NoDup (positions i ps).
  Proof.
    induction ps as [|p ps IH]; intro i; [constructor|]. cbn [positions]. destruct (floatsb p); [|apply IH].
    constructor; [|apply IH]. intro H. apply positions_bound in H. lia.
  Qed.

  Lemma at_holds (s : pset) pre p ps : holds D s (pre ++ p :: ps) -> exists a, at_ D (List.length pre) s = Some a.
  Proof.
    intro H. unfold holds in H. unfold at_. assert (L : List.length (vec D s) = List.length (pre ++ p :: ps)).
    { apply (f_equal (@List.length _)) in H. rewrite !map_length in H. exact H. }
    destruct (nth_error (vec D s) (List.length pre)) as [a|] eqn:E; [eauto|].
    apply nth_error_None in E. rewrite app_length in L. simpl in L. lia.
  Qed.

  Fixpoint index_floats (k : nat) (ps : list param) : list param :=
    match ps with
    | [] => []
    | p :: t => if floatsb p then setMinuitIndex D (Z.of_nat k) p :: index_floats (S k) t else p :: index_floats k t
    end.
  Fixpoint value_floats (xs : list D) (ps : list param) : list param :=
    match ps with
    | [] => []
    | p :: t => if floatsb p then match xs with [] => p :: t | x :: xs' => setCurrentFitVal D x p :: value_floats xs' t end
                else p :: value_floats xs t
    end.

  Lemma snoc_shift (pre : list param) q rest : pre ++ q :: rest = (pre ++ [q]) ++ rest.
  Proof. now rewrite <- app_assoc. Qed.
  Lemma snoc_length (pre : list param) q : S (List.length pre) = List.length (pre ++ [q]).
  Proof. rewrite app_length. simpl. lia. Qed.

  Lemma setIndices_ok rest : forall pre k (s : pset), NoDup (vec D s) -> holds D s (pre ++ rest) ->
    exists s', setIndices D k (positions (List.length pre) rest) s = Ok s' /\ holds D s' (pre ++ index_floats k rest) /\
      vec D s' = vec D s /\ mapping D s' = mapping D s /\ keys D s' = keys D s.
  Proof.
    induction rest as [|p rest IH]; intros pre k s ND H; [exists s; auto|]. cbn [positions index_floats].
    destruct (floatsb p).
    - destruct (at_holds s pre p rest H) as (a & Ha).
      destruct (modify_holds s pre p rest a (setMinuitIndex D (Z.of_nat k)) ND H Ha) as (s1 & E1 & H1 & V1 & M1 & K1).
      rewrite snoc_shift in H1. destruct (IH _ (S k) s1 ltac:(now rewrite V1) H1) as (s2 & E2 & H2 & V2 & M2 & K2).
      exists s2. cbn [setIndices]. rewrite Ha. cbn [of_opt bind]. rewrite E1. cbn [bind].
      rewrite <- snoc_length in E2. rewrite <- snoc_shift in H2. split; [exact E2|]. split; [exact H2|]. repeat split; congruence.
    - rewrite snoc_shift in H. destruct (IH _ k s ND H) as (s2 & E2 & H2 & V2). exists s2.
      rewrite <- snoc_length in E2. rewrite <- snoc_shift in H2. auto.
  Qed.

  Lemma setValues_ok rest : forall pre xs (s : pset), NoDup (vec D s) -> holds D s (pre ++ rest) ->
    List.length xs = List.length (positions (List.length pre) rest) ->
    exists s', setValues D (positions (List.length pre) rest) xs s = Ok s' /\ holds D s' (pre ++ value_floats xs rest) /\
      vec D s' = vec D s /\ mapping D s' = mapping D s /\ keys D s' = keys D s.
  Proof.
    induction rest as [|p rest IH]; intros pre xs s ND H L.
    - exists s. auto.
    - cbn [positions value_floats] in *. destruct (floatsb p).
      + destruct xs as [|x xs]; [discriminate|]. simpl in L. destruct (at_holds s pre p rest H) as (a & Ha).
        destruct (modify_holds s pre p rest a (setCurrentFitVal D x) ND H Ha) as (s1 & E1 & H1 & V1 & M1 & K1).
        rewrite snoc_shift in H1. destruct (IH _ xs s1 ltac:(now rewrite V1) H1) as (s2 & E2 & H2 & V2 & M2 & K2).
        { rewrite <- snoc_length. lia. }
        exists s2. cbn [setValues]. rewrite Ha. cbn [of_opt bind]. rewrite E1. cbn [bind].
        rewrite <- snoc_length in E2. rewrite <- snoc_shift in H2. split; [exact E2|]. split; [exact H2|]. repeat split; congruence.
      + rewrite snoc_shift in H. rewrite (snoc_length pre p) in L. destruct (IH _ xs s ND H L) as (s2 & E2 & H2 & V2). exists s2.
        rewrite <- snoc_length in E2. rewrite <- snoc_shift in H2. auto.
  Qed.

  Lemma positions_index k ps : forall i, positions i (index_floats k ps) = positions i ps.
  Proof.
    revert k. induction ps as [|p ps IH]; intros k i; [reflexivity|]. cbn [index_floats positions].
    destruct (floatsb p) eqn:E; cbn [positions].
    - change (floatsb (setMinuitIndex D (Z.of_nat k) p)) with (floatsb p). rewrite E. now rewrite IH.
    - rewrite E. apply IH.
  Qed.

  Lemma fitted_floats ps : forall i k xs, List.length xs = List.length (positions i ps) ->
    fitted D k xs ps (value_floats xs (index_floats k ps)).
  Proof.
    induction ps as [|p ps IH]; intros i k xs L.
    - destruct xs; [constructor|discriminate].
    - cbn [positions index_floats] in *. destruct (floatsb p) eqn:E.
      + destruct xs as [|x xs]; [discriminate|]. simpl in L. cbn [value_floats].
        change (floatsb (setMinuitIndex D (Z.of_nat k) p)) with (floatsb p). rewrite E.
        apply f_float; try reflexivity; [now apply floatsb_spec|]. apply (IH (S i)). lia.
      + cbn [value_floats]. rewrite E. apply f_fixed; [|now apply (IH (S i))].
        intro F. apply floatsb_spec in F. congruence.
  Qed.

  Lemma setIndices_consistent l : forall k (t s1 : pset), consistent D t -> setIndices D k l t = Ok s1 -> consistent D s1.
  Proof.
    induction l as [|j l IH]; intros k t s1 HC E; cbn [setIndices] in E; [injection E as <-; exact HC|].
    destruct (at_ D j t) as [a|]; [|discriminate]. cbn [of_opt bind] in E.
    destruct (modify D (setMinuitIndex D (Z.of_nat k)) a t) as [t1| | |] eqn:Em; try discriminate. cbn [bind] in E.
    apply (IH (S k) t1 s1); [|exact E]. now apply (consistent_modify (setMinuitIndex D (Z.of_nat k)) a t).
  Qed.

  Lemma prepare_fit (s : pset) ps : consistent D s -> holds D s ps -> exists s1,
    prepare D s = Ok s1 /\ mapping D s1 = positions 0 ps /\ consistent D s1 /\
    (forall xs, List.length xs = List.length (positions 0 ps) -> exists s2 qs,
       setFromMinuit D xs s1 = Ok s2 /\ holds D s2 qs /\ fitted D 0 xs ps qs).
  Proof.
    intros HC H. unfold prepare. rewrite (floating_positions s (vec D s) ps 0 H). cbn [bind]. unfold setMapping.
    set (s0 := {| heap := heap D s; vec := vec D s; keys := keys D s; mapping := positions 0 ps |}).
    pose proof (consistent_NoDup s HC) as ND.
    destruct (setIndices_ok ps [] 0 s0 ND H) as (s1 & E & H1 & V1 & M1 & K1). simpl app in H1. simpl List.length in E.
    exists s1. split; [exact E|]. split; [exact M1|].
    assert (HC1 : consistent D s1).
    { exact (setIndices_consistent (positions 0 ps) 0 s0 s1 HC E). }
    split; [exact HC1|].
    intros xs L. unfold setFromMinuit. rewrite M1. simpl mapping.
    destruct (setValues_ok (index_floats 0 ps) [] xs s1 ltac:(now rewrite V1) H1) as (s2 & E2 & H2 & _).
    { simpl List.length. now rewrite positions_index. }
    simpl List.length in E2. rewrite positions_index in E2. simpl app in H2. exists s2, (value_floats xs (index_floats 0 ps)).
    split; [exact E2|]. split; [exact H2|]. now apply (fitted_floats ps 0 0).
  Qed.

  Lemma prepare_fit' (s : pset) ps : consistent D s -> holds D s ps -> exists s1,
    prepare D s = Ok s1 /\ consistent D s1 /\ NoDup (mapping D s1) /\
    (forall j, In j (mapping D s1) <-> exists p, nth_error ps j = Some p /\ floats D p) /\
    (forall xs, List.length xs = List.length (mapping D s1) -> exists s2 qs,
       setFromMinuit D xs s1 = Ok s2 /\ holds D s2 qs /\ fitted D 0 xs ps qs).
  Proof.
    intros HC H. destruct (prepare_fit s ps HC H) as (s1 & E & M & C1 & X). exists s1. rewrite M.
    split; [exact E|]. split; [exact C1|]. split; [apply positions_NoDup|]. split; [|exact X].
    intro j. rewrite positions_spec, Nat.sub_0_r. split; [tauto|]. intro K. split; [lia|exact K].
  Qed.

  (** ** Covariance *)
  Lemma pairs_In n i j : In (i, j) (pairs n) <-> i < n /\ j < n.
  Proof.
    unfold pairs. rewrite in_flat_map. split.
    - intros (x & Hx & H). apply in_map_iff in H as (y & E & Hy). injection E as <- <-. apply in_seq in Hx, Hy. lia.
    - intros [H1 H2]. exists i. split; [apply in_seq; lia|]. apply in_map. apply in_seq. lia.
  Qed.

  Lemma pairs_NoDup n : NoDup (pairs n).
  Proof.
    unfold pairs. assert (G : forall l m, NoDup l -> NoDup m -> NoDup (flat_map (fun i : nat => map (fun j : nat => (i, j)) m) l)).
    { induction l as [|x l IH]; intros m Hl Hm; [constructor|]. inversion Hl as [|? ? Hx Hl']; subst. cbn [flat_map].
      assert (A : forall (u v : list (nat * nat)), NoDup u -> NoDup v -> (forall z, In z u -> ~ In z v) -> NoDup (u ++ v)).
      { clear. induction u as [|z u IH]; intros v Hu Hv D'; [exact Hv|]. inversion Hu; subst. simpl. constructor.
        - rewrite in_app_iff. intros [K|K]; [contradiction|]. apply (D' z); [now left|exact K].
        - apply IH; auto. intros w Hw. apply D'. now right. }
      apply A.
      - clear - Hm. induction Hm; simpl; constructor; auto. intro K. apply in_map_iff in K as (y & E & Hy). injection E as ->. contradiction.
      - now apply IH.
      - intros z Hz K. apply in_map_iff in Hz as (y & <- & _). apply in_flat_map in K as (x' & Hx' & K).
        apply in_map_iff in K as (y' & E & _). injection E as -> _. contradiction. }
    apply G; apply seq_NoDup.
  Qed.

  Lemma store_cov_loop (C : nat -> nat -> D) n ws : forall l, List.length l = n * n ->
    (forall ij, In ij ws -> fst ij < n /\ snd ij < n) -> exists l',
    fold_left (fun o ij => match o with None => None | Some l => set_at (fst ij + n * snd ij) (C (fst ij) (snd ij)) l end) ws (Some l) = Some l' /\
    List.length l' = n * n /\
    (forall i j, i < n -> j < n -> nth_error l' (i + n * j) = if existsb (fun ij => Nat.eqb (fst ij) i && Nat.eqb (snd ij) j) ws
       then Some (C i j) else nth_error l (i + n * j)).
  Proof.
    induction ws as [|[a b] ws IH]; intros l Hl Hw; [exists l; auto|]. cbn [fold_left fst snd].
    destruct (Hw (a, b) (or_introl eq_refl)) as [Ha Hb]. simpl in Ha, Hb.
    destruct (set_at_Some (a + n * b) (C a b) l) as (l1 & E1 & L1 & N1). { rewrite Hl. nia. }
    rewrite E1. destruct (IH l1 ltac:(lia) ltac:(intros; apply Hw; now right)) as (l' & E & L & Hn).
    exists l'. split; [exact E|]. split; [exact L|]. intros i j Hi Hj. rewrite Hn by assumption. cbn [existsb fst snd].
    destruct (existsb _ ws); [now rewrite orb_true_r|]. rewrite orb_false_r, N1.
    destruct (Nat.eqb_spec (i + n * j) (a + n * b)) as [E'|N'].
    - assert (i = a /\ j = b) as [-> ->].
      { assert (j = b) by nia. subst b. split; lia. }
      now rewrite !Nat.eqb_refl.
    - destruct (Nat.eqb_spec a i) as [->|]; [|reflexivity]. destruct (Nat.eqb_spec b j) as [->|]; [congruence|reflexivity].
  Qed.

  Lemma store_cov_ok (C : nat -> nat -> D) n : exists l, store_cov D zero C n = Some l /\ List.length l = n * n /\
    forall i j, i < n -> j < n -> nth_error l (i + n * j) = Some (C i j).
  Proof.
    unfold store_cov. destruct (store_cov_loop C n (pairs n) (repeat zero (n * n)) (repeat_length _ _)) as (l & E & L & Hn).
    { intros [a b] H. now apply pairs_In. }
    exists l. split; [exact E|]. split; [exact L|]. intros i j Hi Hj. rewrite Hn by assumption.
    assert (X : existsb (fun ij => Nat.eqb (fst ij) i && Nat.eqb (snd ij) j) (pairs n) = true).
    { apply existsb_exists. exists (i, j). rewrite pairs_In. simpl. rewrite !Nat.eqb_refl. auto. }
    now rewrite X.
  Qed.

  Lemma cov_full_loop (C : nat -> nat -> D) m cov ws : NoDup m ->
    (forall i j, i < List.length m -> j < List.length m -> nth_error cov (i + List.length m * j) = Some (C i j)) ->
    (forall ij, In ij ws -> fst ij < List.length m /\ snd ij < List.length m) -> forall f, exists F,
    fold_left (fun o ij =>
      bind o (fun f =>
      match nth_error m (fst ij), nth_error m (snd ij), nth_error cov (fst ij + snd ij * List.length m) with
      | Some a, Some b, Some v => Ok (fun ab => if (Nat.eqb (fst ab) a && Nat.eqb (snd ab) b)%bool then v else f ab)
      | _, _, _ => UB
      end)) ws (Ok f) = Ok F /\
    (forall i j a b, nth_error m i = Some a -> nth_error m j = Some b -> F (a, b) =
       if existsb (fun ij => Nat.eqb (fst ij) i && Nat.eqb (snd ij) j) ws then C i j else f (a, b)) /\
    (forall a b, ~ (In a m /\ In b m) -> F (a, b) = f (a, b)).
  Proof.
    intros ND Hcov. induction ws as [|[x y] ws IH]; intros Hw f; [exists f; auto|].
    destruct (Hw (x, y) (or_introl eq_refl)) as [Hx Hy]. simpl in Hx, Hy. cbn [fold_left fst snd bind].
    destruct (nth_error m x) as [a|] eqn:Ex; [|apply nth_error_None in Ex; lia].
    destruct (nth_error m y) as [b|] eqn:Ey; [|apply nth_error_None in Ey; lia].
    rewrite (Nat.mul_comm y), Hcov by assumption.
    destruct (IH ltac:(intros; apply Hw; now right) (fun ab => if (Nat.eqb (fst ab) a && Nat.eqb (snd ab) b)%bool then C x y else f ab))
      as (F & E & H1 & H2).
    exists F. split; [exact E|]. split.
    - intros i j a' b' Ei Ej. rewrite (H1 i j a' b' Ei Ej). cbn [existsb fst snd].
      destruct (existsb _ ws); [now rewrite orb_true_r|]. rewrite orb_false_r.
      assert (U : forall u v c d, nth_error m u = Some c -> nth_error m v = Some d -> Nat.eqb d c = Nat.eqb u v).
      { intros u v c d Eu Ev. destruct (Nat.eqb_spec u v) as [->|N]; [rewrite Eu in Ev; injection Ev as ->; apply Nat.eqb_refl|].
        apply Nat.eqb_neq. intros ->. apply N. rewrite NoDup_nth_error in ND. apply ND; [|congruence]. apply nth_error_Some. congruence. }
      rewrite (U x i a a' Ex Ei), (U y j b b' Ey Ej). destruct (Nat.eqb_spec x i) as [->|], (Nat.eqb_spec y j) as [->|]; reflexivity.
    - intros a' b' N. rewrite H2 by assumption. cbn [fst snd]. destruct (Nat.eqb_spec a' a) as [->|]; [|reflexivity].
      destruct (Nat.eqb_spec b' b) as [->|]; [|reflexivity]. exfalso. apply N. split; eapply nth_error_In; eauto.
  Qed.

  Lemma cov_full (C : nat -> nat -> D) m : NoDup m -> exists cov F,
    store_cov D zero C (List.length m) = Some cov /\ covMatrixFull D zero cov m = Ok F /\
    (forall i j, i < List.length m -> j < List.length m -> covMatrix D cov (List.length m) i j = Ok (C i j)) /\
    (forall i j a b, nth_error m i = Some a -> nth_error m j = Some b -> F (a, b) = C i j) /\
    (forall a b, ~ (In a m /\ In b m) -> F (a, b) = zero).
  Proof.
    intro ND. destruct (store_cov_ok C (List.length m)) as (cov & E & _ & Hc).
    destruct (cov_full_loop C m cov (pairs (List.length m)) ND Hc ltac:(intros [a b] H; now apply pairs_In) (fun _ => zero)) as (F & EF & H1 & H2).
    exists cov, F. split; [exact E|]. split; [exact EF|]. split; [|split; [|exact H2]].
    - intros i j Hi Hj. unfold covMatrix. rewrite (Nat.mul_comm j), Hc by assumption. reflexivity.
    - intros i j a b Ei Ej. rewrite (H1 i j a b Ei Ej).
      assert (X : existsb (fun ij => Nat.eqb (fst ij) i && Nat.eqb (snd ij) j) (pairs (List.length m)) = true).
      { apply existsb_exists. exists (i, j). rewrite pairs_In. simpl. rewrite !Nat.eqb_refl.
        repeat split; apply nth_error_Some; congruence. }
      now rewrite X.
  Qed.

  (** ** Parameter lines *)
  Lemma parse_flag_word w f : flag_word w f -> parse_flag w = f /\ Z.eqb f Invalid = false.
  Proof.
    unfold flag_word. intro H. cbn [In] in H.
    repeat (destruct H as [H|H]; [injection H as <- <-; split; vm_compute; reflexivity|]). destruct H.
  Qed.

  Definition of_decl (d : decl D) : param := mkParam D zero m9999 (d_name D d) (d_flag D d) (d_mean D d) (d_step D d) (d_min D d) (d_max D d).

  Lemma of_decl_declared d : as_declared D m9999 d (of_decl d).
  Proof. repeat split. Qed.

  Fixpoint add_all (ps : list param) (s : pset) : res pset :=
    match ps with [] => Ok s | p :: t => bind (add_new D p s) (fun '(_, s1) => add_all t s1) end.

  Lemma tryParameter_declares line ds : declares D zero num flag_word line ds -> forall s,
    tryParameter D zero m9999 num line s = add_all (map of_decl ds) s.
  Proof.
    intros H s. destruct H; unfold tryParameter;
      repeat match goal with Hf : flag_word _ _ |- _ => apply parse_flag_word in Hf as [? ?] end;
      repeat match goal with Hn : num _ = Some _ |- _ => rewrite Hn; clear Hn end;
      subst; repeat match goal with Hf : Z.eqb _ Invalid = false |- _ => rewrite Hf; clear Hf end; cbn [orb map add_all of_decl d_name d_flag d_mean d_step d_min d_max];
      reflexivity.
  Qed.

  Lemma add_all_holds new : forall (s : pset) ps, holds D s ps -> exists s', add_all new s = Ok s' /\ holds D s' (ps ++ new).
  Proof.
    induction new as [|p new IH]; intros s ps H; [exists s; now rewrite app_nil_r|]. cbn [add_all].
    destruct (add_any s p) as (b & ks & E). rewrite E. cbn [bind].
    destruct (IH {| heap := heap D s ++ [p]; vec := vec D s ++ [List.length (heap D s)]; keys := ks; mapping := mapping D s |} (ps ++ [p])) as (s' & E' & H').
    - unfold holds in *. cbn [vec]. rewrite !map_app. f_equal.
      + rewrite <- H. apply map_ext_in. intros a Ha. unfold deref. cbn [heap].
        assert (exists p', deref D s a = Ok p') as (p' & Hp').
        { assert (K : In (deref D s a) (map Ok ps)) by (rewrite <- H; now apply in_map). apply in_map_iff in K as (p' & K & _). eauto. }
        apply deref_ok in Hp'. rewrite nth_error_app1; [reflexivity|]. apply nth_error_Some. congruence.
      + cbn [map]. unfold deref. cbn [heap]. rewrite nth_error_app2, Nat.sub_diag by lia. reflexivity.
    - exists s'. rewrite <- app_assoc in H'. auto.
  Qed.

  Lemma tryParameter_adds line ds (s : pset) ps : declares D zero num flag_word line ds -> holds D s ps -> exists s' qs,
    tryParameter D zero m9999 num line s = Ok s' /\ holds D s' (ps ++ qs) /\ Forall2 (as_declared D m9999) ds qs.
  Proof.
    intros Hd H. rewrite (tryParameter_declares line ds Hd).
    destruct (add_all_holds (map of_decl ds) s ps H) as (s' & E & H'). exists s', (map of_decl ds).
    split; [exact E|]. split; [exact H'|]. clear. induction ds; constructor; [apply of_decl_declared|assumption].
  Qed.

  (** Lines that declare nothing leave the set alone. *)
  Definition flag_items : list (nat * str) :=
    [(0, S_ "Free"); (1, S_ "Hide"); (1, S_ "Fix"); (1, S_ "CompileTimeConstant"); (1, S_ "Blind"); (1, S_ "Invalid")].
  Lemma flag_items_id : Forall Enum.Spec.identifier (map snd flag_items).
  Proof.
    apply Forall_forall. intros x H. apply Enum.Proofs.identifierb_spec. revert x H. apply forallb_forall. reflexivity.
  Qed.

  Lemma parse_flag_loose w f : ~ In "000"%char w -> parse_flag w = f -> Z.eqb f Invalid = false -> loose_flag w f.
  Proof.
    intros H0 E N. unfold loose_flag. unfold parse_flag, Enum.Model.enum_parse in E. rewrite Enum.Proofs.cstr_nonul in E by assumption.
    pose proof (Enum.Proofs.strtoul_consumed w) as Hc. destruct (Enum.Model.strtoul w) as [v p]. simpl in Hc.
    destruct p as [|c p]; [right; split; [now apply Hc|now apply Z.eqb_neq]|].
    change flag_text with (Enum.Spec.arg_text flag_items) in E.
    rewrite Enum.Proofs.find_name_spec in E; [|exact flag_items_id|vm_compute; lia].
    left. unfold flag_word. unfold flag_items in E. cbn [map snd Enum.Proofs.index_of] in E.
    repeat match type of E with
    | context [str_eqb w ?x] => destruct (str_eqb_spec w x) as [-> | _]; [cbn [option_map] in E; subst f; try discriminate N; cbn; tauto|]
    end.
    simpl in E. subst f. discriminate N.
  Qed.

  Lemma tryParameter_only line (s : pset) : Forall (fun w => ~ In "000"%char w) line ->
    tryParameter D zero m9999 num line s = Ok s \/
    exists ds, declares D zero num loose_flag line ds /\ tryParameter D zero m9999 num line s = add_all (map of_decl ds) s.
  Proof.
    intro H0. assert (HF : forall w, In w line -> Z.eqb (parse_flag w) Invalid = false -> loose_flag w (parse_flag w)).
    { intros w Hw N. rewrite Forall_forall in H0. apply parse_flag_loose; auto. }
    unfold tryParameter.
    destruct line as [|n [|w1 [|w2 [|w3 line]]]]; try (now left).
    destruct line as [|w4 line].
    { destruct (num w2) eqn:E2; [|now left]. destruct (num w3) eqn:E3; [|now left].
      destruct (Z.eqb (parse_flag w1) Invalid) eqn:Ef; [now left|]. right. eexists. split.
      - apply d_scalar; [apply HF; [simpl; tauto|exact Ef]|exact E2|exact E3].
      - reflexivity. }
    destruct line as [|w5 line]; [now left|]. destruct line as [|w6 line].
    { destruct (num w2) eqn:E2; [|now left]. destruct (num w3) eqn:E3; [|now left].
      destruct (num w4) eqn:E4; [|now left]. destruct (num w5) eqn:E5; [|now left].
      destruct (Z.eqb (parse_flag w1) Invalid) eqn:Ef; [now left|]. right. eexists. split.
      - apply d_limits; [apply HF; [simpl; tauto|exact Ef]|exact E2|exact E3|exact E4|exact E5].
      - reflexivity. }
    destruct line as [|w7 line].
    { destruct (num w2) eqn:E2; [|now left]. destruct (num w3) eqn:E3; [|now left].
      destruct (num w5) eqn:E5; [|now left]. destruct (num w6) eqn:E6; [|now left].
      destruct (Z.eqb (parse_flag w1) Invalid) eqn:Ef; [now left|].
      destruct (Z.eqb (parse_flag w4) Invalid) eqn:Eg; [now left|]. right. eexists. split.
      - apply d_complex; [apply HF; [simpl; tauto|exact Ef]|exact E2|exact E3|apply HF; [simpl; tauto|exact Eg]|exact E5|exact E6].
      - reflexivity. }
    destruct line as [|w8 [|w9 [|w10 [|w11 line]]]]; try (now left).
    { destruct (num w2) eqn:E2; [|now left]. destruct (num w3) eqn:E3; [|now left].
      destruct (num w4) eqn:E4; [|now left]. destruct (num w5) eqn:E5; [|now left].
      destruct (num w7) eqn:E7; [|now left]. destruct (num w8) eqn:E8; [|now left].
      destruct (num w9) eqn:E9; [|now left]. destruct (num w10) eqn:E10; [|now left].
      destruct (Z.eqb (parse_flag w1) Invalid) eqn:Ef; [now left|].
      destruct (Z.eqb (parse_flag w6) Invalid) eqn:Eg; [now left|]. right. eexists. split.
      - apply d_complex_limits; [apply HF; [simpl; tauto|exact Ef]|exact E2|exact E3|exact E4|exact E5
          |apply HF; [simpl; tauto|exact Eg]|exact E7|exact E8|exact E9|exact E10].
      - reflexivity. }
  Qed.
End Proofs.
