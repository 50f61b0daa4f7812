(** Loading a parameter set from the options: src/MinuitParameterSet.cpp:163-178 on top of the options parser. *)
From Verif.Common Require Import Prelude.
From Verif.Options Require Import Model Spec Proofs.
From Verif.Minuit Require Import Model Spec Proofs.

Section Load.
  Variables (D : Type) (zero m9999 : D) (num : str -> option D).
  Notation pset := (pset D).
  Notation param := (param D).

  (** The options given line by line, then loadFromStream on a new set. *)
  Definition load_options (imp : str -> parser -> res parser) (h : list (list str)) : res pset :=
    bind (feed (addArg imp) h empty_parser) (fun p =>
    bind (getInputOrdered p) (fun lines => loadLines D zero m9999 num lines (empty_set D))).

  Definition named (n : str) (p : param) : bool := str_eqb n (name D p).

  (** Looking up a name gives the first parameter of that name. *)
  Definition first_found (s : pset) (ps : list param) : Prop := holds D s ps /\
    forall n, match Model.find D n s with
              | Some a => exists p, deref D s a = Ok p /\ List.find (named n) ps = Some p
              | None => List.find (named n) ps = None
              end.

  Lemma find_app {A} (f : A -> bool) l m : List.find f (l ++ m) = match List.find f l with Some x => Some x | None => List.find f m end.
  Proof. induction l as [|a l IH]; simpl; [reflexivity|]. destruct (f a); [reflexivity|exact IH]. Qed.

  Lemma first_found_add s ps p : first_found s ps -> exists b s', add_new D p s = Ok (b, s') /\ first_found s' (ps ++ [p]).
  Proof.
    intros [H F]. destruct (add_all_holds D [p] s ps H) as (s' & E & H'). cbn [add_all] in E.
    destruct (add_new D p s) as [[b s1]| | |] eqn:Ea; try discriminate. cbn [bind] in E. injection E as ->.
    exists b, s'. split; [reflexivity|]. split; [exact H'|]. intro n. rewrite find_app. cbn [List.find].
    specialize (F n). destruct (Model.find D (name D p) s) as [a0|] eqn:E0.
    - (* name taken *)
      unfold add_new, alloc, addToEnd in Ea. unfold deref in Ea. cbn [with_heap heap keys] in Ea.
      rewrite nth_error_app2, Nat.sub_diag in Ea by lia. cbn [nth_error of_opt bind] in Ea. unfold Model.find in E0. rewrite E0 in Ea.
      injection Ea as <- <-. unfold Model.find in *. cbn [keys].
      destruct (key_find n (keys D s)) as [a|] eqn:En.
      + destruct F as (q & Hq & Hf). exists q. rewrite Hf. split; [|reflexivity]. apply deref_ok. cbn [heap]. apply deref_ok in Hq.
        rewrite nth_error_app1; [exact Hq|]. apply nth_error_Some. congruence.
      + rewrite F. unfold named. destruct (str_eqb_spec n (name D p)); [congruence|reflexivity].
    - rewrite (add_fresh D s p E0) in Ea. injection Ea as <- <-. unfold Model.find in *. cbn [keys]. rewrite key_find_app.
      destruct (key_find n (keys D s)) as [a|] eqn:En.
      + destruct F as (q & Hq & Hf). exists q. rewrite Hf. split; [|reflexivity]. apply deref_ok. cbn [heap]. apply deref_ok in Hq.
        rewrite nth_error_app1; [exact Hq|]. apply nth_error_Some. congruence.
      + rewrite F. cbn [key_find]. unfold named. destruct (str_eqb n (name D p)); [|reflexivity]. exists p. split; [|reflexivity].
        apply deref_ok. cbn [heap]. rewrite nth_error_app2, Nat.sub_diag by lia. reflexivity.
  Qed.

  Lemma first_found_all new : forall s ps, first_found s ps -> exists s', add_all D new s = Ok s' /\ first_found s' (ps ++ new).
  Proof.
    induction new as [|p new IH]; intros s ps H; [exists s; now rewrite app_nil_r|]. cbn [add_all].
    destruct (first_found_add s ps p H) as (b & s1 & E & H1). rewrite E. cbn [bind].
    destruct (IH s1 (ps ++ [p]) H1) as (s' & E' & H'). exists s'. rewrite <- app_assoc in H'. auto.
  Qed.

  Lemma loadLines_found lines dss : Forall2 (declares D zero num flag_word) lines dss -> forall s ps, first_found s ps ->
    exists s', loadLines D zero m9999 num lines s = Ok s' /\ first_found s' (ps ++ map (of_decl D zero m9999) (List.concat dss)).
  Proof.
    induction 1 as [|line ds lines dss Hd _ IH]; intros s ps H; [exists s; simpl; now rewrite app_nil_r|].
    cbn [loadLines List.concat]. rewrite (tryParameter_declares D zero m9999 num line ds Hd).
    destruct (first_found_all (map (of_decl D zero m9999) ds) s ps H) as (s1 & E & H1). rewrite E. cbn [bind].
    destruct (IH s1 _ H1) as (s' & E' & H'). exists s'. split; [exact E'|]. now rewrite map_app, app_assoc.
  Qed.

  Lemma empty_found : first_found (empty_set D) [].
  Proof. split; [reflexivity|]. intro n. reflexivity. Qed.

  Lemma flag_word_fun w f g : flag_word w f -> flag_word w g -> f = g.
  Proof. intros H1 H2. apply parse_flag_word in H1 as [<- _]. now apply parse_flag_word in H2 as [<- _]. Qed.

  Lemma declares_fun line ds ds' : declares D zero num flag_word line ds -> declares D zero num flag_word line ds' -> ds = ds'.
  Proof.
    intros H1 H2. inversion H1; subst; inversion H2; subst;
      repeat match goal with H : flag_word ?w ?f, K : flag_word ?w ?g |- _ => pose proof (flag_word_fun w f g H K); clear K end; congruence.
  Qed.

  Lemma declares_name line d : declares D zero num flag_word line [d] -> d_name D d = hd [] line.
  Proof. intro H. inversion H; reflexivity. Qed.

  Lemma load_last imp h : Forall option_line h -> (forall l, In l h -> exists d, declares D zero num flag_word l [d]) ->
    exists s, load_options imp h = Ok s /\
    (forall k l d, last_with_key k h = Some l -> declares D zero num flag_word l [d] ->
      exists a p, Model.find D k s = Some a /\ deref D s a = Ok p /\ as_declared D m9999 d p) /\
    (forall k, last_with_key k h = None -> Model.find D k s = None) /\
    (NoDup (map (hd []) h) -> exists ps, holds D s ps /\ Forall2 (fun l p => exists d, declares D zero num flag_word l [d] /\ as_declared D m9999 d p) h ps).
  Proof.
    intros Ho Hd. destruct (inputs_ordered imp h Ho) as (p0 & E & Hf & Hg). unfold load_options. rewrite E. cbn [bind]. rewrite Hg. cbn [bind].
    set (lines := map (fun l => current h (hd [] l)) h).
    assert (Hl : forall l, In l lines -> In l h /\ last_with_key (hd [] l) h = Some l).
    { intros l Hl. apply in_map_iff in Hl as (l0 & <- & Hin). rewrite Forall_forall in Ho.
      destruct (last_with_key_hd l0 h (Ho l0 Hin) Hin) as (r & Er & Eh & Hr). unfold current. rewrite Er. split; [exact Hr|]. now rewrite Eh. }
    assert (Hx : exists dss, Forall2 (fun l d => declares D zero num flag_word l [d]) lines dss).
    { clear Hg. revert Hl. generalize lines as ls. induction ls as [|l ls IH]; intro Hl; [exists []; constructor|].
      destruct (IH (fun x Hx => Hl x (or_intror Hx))) as (dss & HD). destruct (Hd l (proj1 (Hl l (or_introl eq_refl)))) as (d & Hd1).
      exists (d :: dss). now constructor. }
    destruct Hx as (ds & HD).
    assert (HD2 : Forall2 (declares D zero num flag_word) lines (map (fun d => [d]) ds)) by (clear - HD; induction HD; constructor; auto).
    destruct (loadLines_found _ _ HD2 (empty_set D) [] empty_found) as (s & Es & Hh & F). exists s. split; [exact Es|].
    assert (Ec : List.concat (map (fun d => [d]) ds) = ds) by (clear; induction ds; simpl; congruence).
    rewrite Ec in *. cbn [app] in *.
    assert (Hname : forall l d, In l lines -> declares D zero num flag_word l [d] -> True) by auto.
    assert (Hfirst : forall n p, List.find (named n) (map (of_decl D zero m9999) ds) = Some p ->
      exists l d, In l lines /\ hd [] l = n /\ declares D zero num flag_word l [d] /\ p = of_decl D zero m9999 d).
    { intros n p Hp. apply find_some in Hp as [Hin Hn]. apply in_map_iff in Hin as (d & <- & Hin).
      assert (exists l, In l lines /\ declares D zero num flag_word l [d]) as (l & Hl1 & Hl2).
      { clear - HD Hin. induction HD as [|l0 d0 ls ds0 H0 _ IH]; [destruct Hin|]. destruct Hin as [->|Hin]; [exists l0; split; [now left|exact H0]|].
        destruct (IH Hin) as (l & ? & ?). exists l. split; [now right|assumption]. }
      exists l, d. split; [exact Hl1|]. split; [|now split]. unfold named in Hn. destruct (str_eqb_spec n (name D (of_decl D zero m9999 d))) as [Hn'|]; [|discriminate].
      cbn in Hn'. rewrite Hn'. symmetry. now apply declares_name. }
    split; [|split].
    - intros k l d Hk Hdl. specialize (F k).
      assert (Hin : In l lines).
      { assert (Hlh : In l h /\ hd [] l = k).
        { clear - Hk Ho. induction h as [|x h IH]; [discriminate|]. cbn [last_with_key] in Hk. inversion Ho as [|? ? Hx Ho']; subst.
          destruct (last_with_key k h) as [r|].
          - injection Hk as ->. destruct (IH Ho' eq_refl). split; [now right|assumption].
          - destruct x as [|k' t]; [discriminate|]. destruct (str_eqb_spec k k') as [->|]; [|discriminate]. injection Hk as <-. split; [now left|reflexivity]. }
        apply in_map_iff. exists l. destruct Hlh as [Hlh <-]. split; [|exact Hlh]. unfold current. now rewrite Hk. }
      destruct (Model.find D k s) as [a|].
      + destruct F as (p & Hp & Hf1). exists a, p. split; [reflexivity|]. split; [exact Hp|].
        destruct (Hfirst k p Hf1) as (l' & d' & Hl' & Hk' & Hd' & ->).
        destruct (Hl l' Hl') as [_ Hlast]. rewrite Hk', Hk in Hlast. injection Hlast as <-.
        pose proof (declares_fun l [d] [d'] Hdl Hd') as X. injection X as ->. apply of_decl_declared.
      + exfalso. assert (exists d', In d' ds /\ declares D zero num flag_word l [d']) as (d' & Hd1 & Hd2).
        { clear - HD Hin. induction HD as [|l0 d0 ls ds0 H0 _ IH]; [destruct Hin|]. destruct Hin as [->|Hin]; [exists d0; split; [now left|exact H0]|].
          destruct (IH Hin) as (d & ? & ?). exists d. split; [now right|assumption]. }
        pose proof (find_none _ _ F (of_decl D zero m9999 d') (in_map _ _ _ Hd1)) as N.
        unfold named in N. cbn in N. rewrite (declares_name l d' Hd2) in N.
        destruct (Hl l Hin) as [_ Hlast]. assert (k = hd [] l).
        { apply in_map_iff in Hin as (l0 & E0 & Hin0). rewrite Forall_forall in Ho.
          clear - Hk. induction h as [|x h IH]; [discriminate|]. cbn [last_with_key] in Hk.
          destruct (last_with_key k h) as [r|]; [injection Hk as ->; now apply IH|]. destruct x as [|k' t]; [discriminate|].
          destruct (str_eqb_spec k k') as [->|]; [|discriminate]. now injection Hk as <-. }
        subst k. rewrite str_eqb_refl in N. discriminate.
    - intros k Hk. specialize (F k). destruct (Model.find D k s) as [a|]; [|reflexivity]. exfalso.
      destruct F as (p & _ & Hf1). destruct (Hfirst k p Hf1) as (l' & d' & Hl' & Hk' & _). destruct (Hl l' Hl') as [_ X]. rewrite Hk' in X. congruence.
    - intro ND. exists (map (of_decl D zero m9999) ds). split; [exact Hh|].
      assert (El : lines = h). { unfold lines. rewrite <- (map_id h) at 2. apply map_ext_in. intros l Hin. now apply distinct_current. }
      rewrite El in HD. clear - HD. induction HD as [|l d ls ds H _ IH]; constructor; [|exact IH]. exists d. split; [exact H|]. apply of_decl_declared.
  Qed.
End Load.
