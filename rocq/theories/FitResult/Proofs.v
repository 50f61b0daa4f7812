From Verif.Common Require Import Prelude.
From Verif.Enum Require Model Spec Proofs.
From Verif.Utilities Require Import Model.
From Verif.Minuit Require Import Model Spec Proofs Load.
From Verif.FitResult Require Import Model Spec.

Lemma prefixb_spec p : forall s, prefixb p s = true <-> exists b, s = p ++ b.
Proof.
  induction p as [|c p IH]; intro s; simpl.
  - split; [intros _; now exists s|reflexivity].
  - destruct s as [|d s]; [split; [discriminate|intros (b & E); discriminate]|]. rewrite andb_true_iff, Ascii.eqb_eq, IH. split.
    + intros [-> (b & ->)]. now exists b.
    + intros (b & E). injection E as -> ->. split; [reflexivity|now exists b].
Qed.

Lemma has_spec sub : forall s, has sub s = true <-> contains sub s.
Proof.
  unfold has. induction s as [|c s IH].
  - cbn [find0]. destruct (prefixb sub []) eqn:E.
    + apply prefixb_spec in E as (b & E). split; [|reflexivity]. intros _. now exists [], b.
    + split; [discriminate|]. intros (a & b & E'). assert (X : prefixb sub [] = true); [|congruence].
      destruct a; [|discriminate]. apply prefixb_spec. now exists b.
  - cbn [find0]. destruct (prefixb sub (c :: s)) eqn:E.
    + apply prefixb_spec in E as (b & E). split; [|reflexivity]. intros _. exists [], b. exact E.
    + assert (G : (match option_map S (find0 sub s) with Some _ => true | None => false end) = match find0 sub s with Some _ => true | None => false end).
      { now destruct (find0 sub s). }
      rewrite G, IH. split; intros (a & b & E').
      * exists (c :: a), b. now rewrite E'.
      * destruct a as [|c' a].
        -- assert (X : prefixb sub (c :: s) = true); [|congruence]. apply prefixb_spec. now exists b.
        -- injection E' as -> ->. now exists a, b.
Qed.

Section Proofs.
  Variables (D : Type) (add : D -> D -> D) (isZero : D -> bool) (pr : D -> str) (rd : str -> option D) (zero m9999 : D).
  Hypothesis isZero_spec : forall d, isZero d = true <-> d = zero.
  Notation param := (param D).

  Lemma lookup_In k ps p : lookup D k ps = Some p -> In p ps /\ name D p = k.
  Proof.
    unfold lookup. intro H. apply find_some in H as [H1 H2]. split; [exact H1|].
    destruct (str_eqb_spec k (name D p)); [congruence|discriminate].
  Qed.

  Lemma lookup_names (ps ps' : list param) (R : param -> param -> Prop) k : (forall p q, R p q -> name D p = name D q) -> Forall2 R ps ps' ->
    match lookup D k ps, lookup D k ps' with Some p, Some p' => R p p' | None, None => True | _, _ => False end.
  Proof.
    intros HR H. unfold lookup. induction H as [|p q ps qs H _ IH]; [exact I|]. cbn [List.find]. rewrite (HR p q H).
    destruct (str_eqb k (name D q)); [exact H|exact IH].
  Qed.

  Lemma same_isBlind p q : same_but_mean D p q -> isBlind D p = isBlind D q /\ isFree D p = isFree D q.
  Proof. intros (_ & E & _). unfold isBlind, isFree. now rewrite E. Qed.

  Lemma blind_flag p : isBlind D p = true <-> flag D p = 4%Z.
  Proof. unfold isBlind, Blind. apply Z.eqb_eq. Qed.

  (** The offset of a blinded parameter in both sets. *)
  Lemma twin_offset secret ps ps' p p' : indistinguishable D add zero secret ps ps' -> twin D add zero secret ps ps' p p' -> ~ secret p -> isBlind D p = true ->
    match lookup D (blind_name (name D p)) ps, lookup D (blind_name (name D p')) ps' with
    | Some q, Some q' => isZero (mean D q) = false /\ isZero (mean D q') = false /\ add (mean D p) (mean D q) = add (mean D p') (mean D q')
    | None, None => True
    | _, _ => False
    end.
  Proof.
    intros HI [Hs [Hsec|[[_ HB]|[HN _]]]] NS HB'; [contradiction| |apply blind_flag in HB'; contradiction].
    assert (En : name D p = name D p') by apply Hs. rewrite <- En.
    pose proof (lookup_names ps ps' (twin D add zero secret ps ps') (blind_name (name D p)) ltac:(intros a b [(H & _) _]; exact H) HI) as X.
    destruct (lookup D (blind_name (name D p)) ps) as [q|] eqn:E1, (lookup D (blind_name (name D p)) ps') as [q'|] eqn:E2; try exact X; try exact I.
    apply lookup_In in E1 as [I1 N1]. apply lookup_In in E2 as [I2 N2]. destruct (HB q q' I1 I2 N1 N2) as (Z1 & Z2 & E). split; [|split; [|exact E]].
    - destruct (isZero (mean D q)) eqn:Ez; [apply isZero_spec in Ez; contradiction|reflexivity].
    - destruct (isZero (mean D q')) eqn:Ez; [apply isZero_spec in Ez; contradiction|reflexivity].
  Qed.

  Lemma param_words_same p p' d : same_but_mean D p p' -> param_words D pr p d = param_words D pr p' d.
  Proof. intros (E1 & E2 & E3 & E4 & E5 & E6 & E7 & E8 & E9 & _). unfold param_words. congruence. Qed.

  Lemma write_param_twin ps ps' p p' : indistinguishable D add zero (fun q => contains (S_ "_blind") (name D q)) ps ps' ->
    twin D add zero (fun q => contains (S_ "_blind") (name D q)) ps ps' p p' ->
    write_param D add isZero pr ps zero p = write_param D add isZero pr ps' zero p'.
  Proof.
    intros HI HT. pose proof HT as [Hs _]. unfold write_param. assert (En : name D p = name D p') by apply Hs. rewrite <- En.
    destruct (has (S_ "_blind") (name D p)) eqn:Eh; [reflexivity|].
    assert (NS : ~ contains (S_ "_blind") (name D p)) by (intro K; apply has_spec in K; congruence).
    rewrite <- (proj1 (same_isBlind p p' Hs)). destruct (isBlind D p) eqn:EB.
    - pose proof (twin_offset _ ps ps' p p' HI HT NS EB) as X. rewrite <- En in X.
      destruct (lookup D (blind_name (name D p)) ps) as [q|], (lookup D (blind_name (name D p)) ps') as [q'|]; try destruct X; [|reflexivity].
      destruct H0 as [H0 E]. rewrite H, H0, E. do 2 f_equal. now apply param_words_same.
    - destruct HT as [_ [Hsec|[[HB _]|[_ E]]]]; [contradiction|apply blind_flag in HB; congruence|]. rewrite E. do 2 f_equal. now apply param_words_same.
  Qed.

  Lemma write_params_twin ps ps' l l' : indistinguishable D add zero (fun q => contains (S_ "_blind") (name D q)) ps ps' ->
    Forall2 (twin D add zero (fun q => contains (S_ "_blind") (name D q)) ps ps') l l' ->
    write_params D add isZero pr zero ps l = write_params D add isZero pr zero ps' l'.
  Proof.
    intros HI H. induction H as [|p p' l l' Hp _ IH]; [reflexivity|]. cbn [write_params]. rewrite (write_param_twin ps ps' p p' HI Hp), IH. reflexivity.
  Qed.

  Lemma Forall2_firstn {A B} (R : A -> B -> Prop) l l' : Forall2 R l l' -> forall n, Forall2 R (firstn n l) (firstn n l').
  Proof. induction 1; intros [|n]; simpl; constructor; auto. Qed.

  Lemma writeToFile_twin ps ps' c q fr ob : indistinguishable D add zero (fun q => contains (S_ "_blind") (name D q)) ps ps' ->
    writeToFile D add isZero pr zero {| params := ps; cov := c; quality := q; fractions := fr; observables := ob |} =
    writeToFile D add isZero pr zero {| params := ps'; cov := c; quality := q; fractions := fr; observables := ob |}.
  Proof.
    intro HI. unfold writeToFile. cbn [params cov quality fractions observables].
    rewrite (write_params_twin ps ps' _ _ HI (Forall2_firstn _ _ _ HI (List.length c))).
    assert (E : flat_map (fun p => [name D p; flag_str (flag D p)]) (firstn (List.length c) ps) =
                flat_map (fun p => [name D p; flag_str (flag D p)]) (firstn (List.length c) ps')).
    { generalize (Forall2_firstn _ _ _ HI (List.length c)). generalize (firstn (List.length c) ps) (firstn (List.length c) ps').
      intros l l' H. induction H as [|p p' l l' [(E1 & E2 & _) _] _ IH]; [reflexivity|]. cbn [flat_map]. now rewrite E1, E2, IH. }
    now rewrite E.
  Qed.

  Definition unprinted (p : param) : Prop := flag D p <> 0%Z /\ flag D p <> 2%Z /\ flag D p <> 4%Z.
  Lemma fit_row_unprinted minos p m : unprinted p -> fit_row D pr zero minos p m = [].
  Proof.
    intros (H0 & H2 & H4). unfold fit_row, isFree, isBlind, Free, Fix, Blind.
    destruct (Z.eqb_spec (flag D p) 0), (Z.eqb_spec (flag D p) 2), (Z.eqb_spec (flag D p) 4); try contradiction. reflexivity.
  Qed.
  Lemma fit_row_same minos p p' m : same_but_mean D p p' -> fit_row D pr zero minos p m = fit_row D pr zero minos p' m.
  Proof.
    intros (E1 & E2 & E3 & E4 & E5 & E6 & E7 & E8 & E9 & _). unfold fit_row, isFree, isBlind. now rewrite E1, E2, E7, E8, E9.
  Qed.

  Lemma fit_table_twin minos ps ps' l l' : indistinguishable D add zero unprinted ps ps' ->
    Forall2 (twin D add zero unprinted ps ps') l l' ->
    fit_table D add isZero pr zero minos ps l = fit_table D add isZero pr zero minos ps' l'.
  Proof.
    intros HI H. induction H as [|p p' l l' Hp _ IH]; [reflexivity|]. cbn [fit_table]. rewrite IH. f_equal.
    pose proof Hp as [Hs _]. pose proof (same_isBlind p p' Hs) as [Eb _]. rewrite <- Eb. destruct (isBlind D p) eqn:EB.
    - assert (NS : ~ unprinted p) by (intros (_ & _ & N); apply blind_flag in EB; contradiction).
      pose proof (twin_offset _ ps ps' p p' HI Hp NS EB) as X.
      destruct (lookup D (blind_name (name D p)) ps) as [q|], (lookup D (blind_name (name D p')) ps') as [q'|]; try destruct X; [|reflexivity].
      destruct H0 as [H0 E]. rewrite H, H0, E. f_equal. now apply fit_row_same.
    - f_equal. destruct Hp as [_ [Hsec|[[HB _]|[_ E]]]].
      + rewrite (fit_row_unprinted minos p) by assumption. symmetry. apply fit_row_unprinted.
        destruct Hs as (_ & E2 & _). unfold unprinted in *. now rewrite <- E2.
      + apply blind_flag in HB. congruence.
      + rewrite E. now apply fit_row_same.
  Qed.

  Lemma minos_twin secret ps ps' p p' : indistinguishable D add zero secret ps ps' -> twin D add zero secret ps ps' p p' -> ~ secret p ->
    minos_line D add pr ps p = minos_line D add pr ps' p'.
  Proof.
    intros HI HT NS. pose proof HT as [Hs _]. pose proof (same_isBlind p p' Hs) as [Eb _]. unfold minos_line. rewrite <- Eb.
    assert (E1 : name D p = name D p' /\ errNeg D p = errNeg D p' /\ errPos D p = errPos D p') by (unfold same_but_mean in Hs; tauto).
    destruct E1 as (E1 & E2 & E3). destruct (isBlind D p) eqn:EB.
    - pose proof (twin_offset _ ps ps' p p' HI HT NS EB) as X.
      destruct (lookup D (blind_name (name D p)) ps) as [q|], (lookup D (blind_name (name D p')) ps') as [q'|]; try destruct X; [|reflexivity].
      destruct H0 as [_ E]. now rewrite E, E1, E2, E3.
    - destruct HT as [_ [Hsec|[[HB _]|[_ E]]]]; [contradiction|apply blind_flag in HB; congruence|]. now rewrite E, E1, E2, E3.
  Qed.

  Lemma print_one_blind p p' : flag D p = 4%Z -> same_but_mean D p p' -> print_one D isZero pr p = print_one D isZero pr p'.
  Proof.
    intros HB (E1 & E2 & E3 & E4 & E5 & E6 & _). unfold print_one, isBlind. rewrite <- E2, HB, E1, E4, E5, E6. reflexivity.
  Qed.

  (** ** Reading back *)
  Lemma to_doubles_pr ds : (forall d, rd (pr d) <> None) -> exists v, to_doubles D rd (map pr ds) = Ok v /\ List.length v = List.length ds.
  Proof.
    intro H. induction ds as [|d ds (v & E & L)]; [now exists []|]. cbn [map to_doubles].
    destruct (rd (pr d)) as [x|] eqn:Ex; [|destruct (H d Ex)]. rewrite E. exists (x :: v). simpl. auto.
  Qed.

  Lemma to_parameter_UB p d : (forall d, rd (pr d) <> None) -> to_parameter D rd zero m9999 (param_words D pr p d) = UB.
  Proof.
    intro H. unfold to_parameter, param_words. cbn [List.length Nat.eqb negb skipn].
    destruct (to_doubles_pr [d; err D p; errNeg D p; errPos D p; minInit D p; maxInit D p] H) as (v & E & L). cbn [map] in E. rewrite E. cbn [bind].
    destruct v as [|a0 [|a1 [|a2 [|a3 [|a4 [|a5 [|a6 v]]]]]]]; try discriminate L. reflexivity.
  Qed.

  Lemma read_UB r file : (forall d, rd (pr d) <> None) -> writeToFile D add isZero pr zero r = Ok file ->
    (exists p, In p (firstn (List.length (cov D r)) (params D r)) /\ ~ contains (S_ "_blind") (name D p) /\ flag D p <> 4%Z) ->
    readFile D rd zero m9999 file = UB.
  Proof.
    intros H E (p & Hp & N1 & N2). unfold writeToFile in E.
    assert (G : forall l all head, In p l -> write_params D add isZero pr zero all l = Ok head -> exists q d rest, head = param_words D pr q d :: rest).
    { induction l as [|a l IH]; intros all head Hin Eh; [destruct Hin|]. cbn [write_params] in Eh.
      destruct (write_param D add isZero pr all zero a) as [x| | |] eqn:Ea; try discriminate. cbn [bind] in Eh.
      destruct (write_params D add isZero pr zero all l) as [y| | |] eqn:El; try discriminate. cbn [bind] in Eh. injection Eh as <-.
      assert (Hx : x = [] \/ exists d, x = [param_words D pr a d]).
      { unfold write_param in Ea. destruct (has _ _); [injection Ea as <-; now left|]. destruct (isBlind D a).
        - destruct (lookup _ _ _); [|discriminate]. destruct (isZero _); injection Ea as <-; [now left|right; eauto].
        - injection Ea as <-. right. eauto. }
      destruct Hx as [-> | (d & ->)]; [|now exists a, d, y]. destruct Hin as [->|Hin]; [|exact (IH all y Hin El)].
      exfalso. unfold write_param in Ea. destruct (has (S_ "_blind") (name D p)) eqn:Eh; [apply has_spec in Eh; contradiction|].
      destruct (isBlind D p) eqn:EB; [apply blind_flag in EB; contradiction|discriminate]. }
    destruct (write_params D add isZero pr zero (params D r) (firstn (List.length (cov D r)) (params D r))) as [head| | |] eqn:Eh; try discriminate. cbn [bind] in E.
    destruct (G _ _ _ Hp Eh) as (q & d & rest & ->). destruct (quality D r) as [[[[qa qb] qc] qd] qe]. injection E as <-.
    unfold readFile. cbn [app read_lines]. unfold read_line at 1.
    set (ws := param_words D pr q d).
    assert (Ew : ws = S_ "Parameter" :: tl ws) by reflexivity. rewrite Ew. rewrite str_eqb_refl. rewrite <- Ew. unfold ws.
    rewrite (to_parameter_UB q d H). reflexivity.
  Qed.

  Lemma obs_fold (ob : list (str * D)) : (forall d, rd (pr d) = Some d) -> NoDup (map fst ob) -> forall rest s,
    (forall n, In n (map fst ob) -> ~ In n (map fst (r_observables D s))) -> r_in D s = false ->
    read_lines D rd zero m9999 (map (fun '(n, v) => [S_ "Observable"; n; pr v]) ob ++ rest) s =
    read_lines D rd zero m9999 rest {| r_params := r_params D s; r_quality := r_quality D s; r_fractions := r_fractions D s;
      r_observables := r_observables D s ++ ob; r_cov := r_cov D s; r_in := r_in D s |}.
  Proof.
    intros Hrd ND. induction ob as [|[n v] ob IH]; intros rest s Hf Hi.
    - cbn [map app]. rewrite app_nil_r. now destruct s.
    - cbn [map app fst] in *. inversion ND as [|? ? Hn ND']; subst. cbn [read_lines]. unfold read_line.
      change (str_eqb (S_ "Observable") (S_ "Parameter")) with false. change (str_eqb (S_ "Observable") (S_ "FitQuality")) with false.
      change (str_eqb (S_ "Observable") (S_ "FitFraction")) with false. change (str_eqb (S_ "Observable") (S_ "Observable")) with true.
      cbv iota. rewrite Hrd. unfold in_cov. cbn [r_in]. rewrite Hi. cbn [bind]. rewrite IH.
      + cbn [r_observables r_params r_quality r_fractions r_cov r_in]. assert (X : forall m, ~ In n (map fst m) -> obs_set D n v m = m ++ [(n, v)]).
        { induction m as [|[k w] m IHm]; intro K; [reflexivity|]. simpl in *. destruct (str_eqb_spec n k) as [->|]; [exfalso; apply K; now left|]. rewrite IHm; tauto. }
        rewrite X by (apply Hf; now left). now rewrite <- !app_assoc.
      + assumption.
      + cbn [r_observables]. intros k Hk. assert (X : forall m, In k (map fst (obs_set D n v m)) -> k = n \/ In k (map fst m)).
        { induction m as [|[k' w] m IHm]; simpl; [intros [<-|[]]; now left|]. destruct (str_eqb_spec n k') as [->|]; simpl; intros [<-|K]; auto. destruct (IHm K); auto. }
        intro K. apply X in K as [->|K]; [contradiction|]. apply (Hf k); [now right|exact K].
      + reflexivity.
  Qed.

  Lemma frac_fold (fr : list (str * D * D)) : (forall d, rd (pr d) = Some d) -> forall rest s, r_in D s = false ->
    read_lines D rd zero m9999 (map (fun '(n, v, e) => [S_ "FitFraction"; n; pr v; pr e]) fr ++ rest) s =
    read_lines D rd zero m9999 rest {| r_params := r_params D s; r_quality := r_quality D s; r_fractions := r_fractions D s ++ fr;
      r_observables := r_observables D s; r_cov := r_cov D s; r_in := r_in D s |}.
  Proof.
    intros Hrd. induction fr as [|[[n v] e] fr IH]; intros rest s Hi.
    - cbn [map app]. rewrite app_nil_r. now destruct s.
    - cbn [map app]. cbn [read_lines]. unfold read_line.
      change (str_eqb (S_ "FitFraction") (S_ "Parameter")) with false. change (str_eqb (S_ "FitFraction") (S_ "FitQuality")) with false.
      change (str_eqb (S_ "FitFraction") (S_ "FitFraction")) with true.
      cbv iota. rewrite !Hrd. unfold in_cov. cbn [r_in]. rewrite Hi. cbn [bind]. rewrite IH by reflexivity.
      cbn [r_observables r_params r_quality r_fractions r_cov r_in]. now rewrite <- app_assoc.
  Qed.

  Lemma read_no_params q fr ob : (forall d, rd (pr d) = Some d) -> NoDup (map fst ob) ->
    let r := {| params := []; cov := []; quality := q; fractions := fr; observables := ob |} in
    bind (writeToFile D add isZero pr zero r) (readFile D rd zero m9999) = Ok r.
  Proof.
    intros Hrd ND r. unfold writeToFile, r. cbn [params cov quality fractions observables List.length firstn write_params bind].
    destruct q as [[[[a b] c] d] e]. cbn [bind app]. unfold readFile. cbn [read_lines]. unfold read_line at 1.
    change (str_eqb (S_ "FitQuality") (S_ "Parameter")) with false. change (str_eqb (S_ "FitQuality") (S_ "FitQuality")) with true. cbv iota.
    unfold in_cov, setFitQuality. cbn [r_in]. rewrite !Hrd. cbn [bind]. cbn [r_params r_quality r_fractions r_observables r_cov].
    rewrite frac_fold by (assumption || reflexivity). rewrite obs_fold; [|assumption|assumption|intros n _ []|reflexivity].
    cbn [r_params r_quality r_fractions r_observables r_cov r_in app].
    cbn [map app flat_map]. reflexivity.
  Qed.

  (** ** Options *)
  Lemma no_has sub s : ~ contains sub s -> has sub s = false.
  Proof. intro H. destruct (has sub s) eqn:E; [apply has_spec in E; contradiction|reflexivity]. Qed.

  Lemma lookup_NoDup ps p : NoDup (map (name D) ps) -> In p ps -> lookup D (name D p) ps = Some p.
  Proof.
    unfold lookup. induction ps as [|q ps IH]; intros ND H; [destruct H|]. cbn [List.find map] in *. inversion ND as [|? ? Hq ND']; subst.
    destruct (str_eqb_spec (name D p) (name D q)) as [E|N].
    - destruct H as [->|H]; [reflexivity|]. exfalso. apply Hq. rewrite <- E. now apply in_map.
    - destruct H as [->|H]; [contradiction|]. now apply IH.
  Qed.

  Definition real_name (n : str) : Prop := ~ contains (S_ "_Re") n /\ ~ contains (S_ "_Im") n.
  Lemma option_lines_real fuel all : NoDup (map (name D) all) -> forall ps keys, (forall p, In p ps -> In p all) -> NoDup (map (name D) ps) ->
    (forall p, In p ps -> real_name (name D p) /\ ~ In (name D p) keys) ->
    option_lines D isZero pr fuel all ps keys = Ok (map (fun p => name D p :: print_param D isZero pr p) ps).
  Proof.
    intro NDa. induction ps as [|p ps IH]; intros keys Hin ND H; [reflexivity|]. cbn [option_lines map] in *. inversion ND as [|? ? Hp ND']; subst.
    destruct (H p (or_introl eq_refl)) as [[N1 N2] Nk].
    assert (Ek : existsb (str_eqb (name D p)) keys = false).
    { destruct (existsb (str_eqb (name D p)) keys) eqn:E; [|reflexivity]. apply existsb_exists in E as (k & Hk & E). apply str_eqb_eq in E. subst k. contradiction. }
    rewrite Ek. unfold option_line_of. rewrite (no_has _ _ N1), (no_has _ _ N2). unfold try_add_real.
    rewrite (lookup_NoDup all p NDa (Hin p (or_introl eq_refl))). cbn [bind]. rewrite IH.
    - reflexivity.
    - intros q Hq. apply Hin. now right.
    - exact ND'.
    - intros q Hq. destruct (H q (or_intror Hq)) as [R K]. split; [exact R|]. intro I. apply in_app_iff in I as [I|[I|[]]]; [contradiction|].
      apply Hp. rewrite I. now apply in_map.
  Qed.

  Lemma flag_str_word f : (0 <= f <= 4)%Z -> flag_word (flag_str f) f.
  Proof.
    intro H. assert (f = 0 \/ f = 1 \/ f = 2 \/ f = 3 \/ f = 4)%Z as [-> | [-> | [-> | [-> | ->]]]] by lia; unfold flag_word;
      match goal with |- In (flag_str ?f, _) _ => let x := eval vm_compute in (flag_str f) in change (flag_str f) with x end; cbn; tauto.
  Qed.

  Lemma print_declares p : (forall d, rd (pr d) = Some d) -> (0 <= flag D p <= 4)%Z ->
    (minInit D p = zero /\ maxInit D p = zero \/ minInit D p <> zero /\ maxInit D p <> zero) ->
    declares D zero rd flag_word (name D p :: print_param D isZero pr p)
      [{| d_name := name D p; d_flag := flag D p; d_mean := mean D p; d_step := err D p; d_min := minInit D p; d_max := maxInit D p |}].
  Proof.
    intros Hrd Hf Hl. unfold print_param. destruct Hl as [[E1 E2]|[E1 E2]].
    - rewrite (proj2 (isZero_spec _) E1). cbn [negb andb app]. rewrite E1, E2. apply d_scalar; auto. now apply flag_str_word.
    - assert (Z1 : isZero (minInit D p) = false) by (destruct (isZero (minInit D p)) eqn:E; [apply isZero_spec in E; contradiction|reflexivity]).
      assert (Z2 : isZero (maxInit D p) = false) by (destruct (isZero (maxInit D p)) eqn:E; [apply isZero_spec in E; contradiction|reflexivity]).
      rewrite Z1, Z2. cbn [negb andb app]. apply d_limits; auto. now apply flag_str_word.
  Qed.

  Lemma writeOptions_real fuel ps : (forall d, rd (pr d) = Some d) -> NoDup (map (name D) ps) ->
    Forall (fun p => real_name (name D p) /\ (0 <= flag D p <= 4)%Z /\
      (minInit D p = zero /\ maxInit D p = zero \/ minInit D p <> zero /\ maxInit D p <> zero)) ps ->
    exists lines s qs, writeOptions D isZero pr fuel ps = Ok lines /\ loadLines D zero m9999 rd lines (empty_set D) = Ok s /\
      holds D s qs /\ Forall2 (kept D) ps qs.
  Proof.
    intros Hrd ND HF. rewrite Forall_forall in HF. eexists.
    set (dss := map (fun p => [{| d_name := name D p; d_flag := flag D p; d_mean := mean D p; d_step := err D p; d_min := minInit D p; d_max := maxInit D p |}]) ps).
    assert (HD : Forall2 (declares D zero rd flag_word) (map (fun p => name D p :: print_param D isZero pr p) ps) dss).
    { unfold dss. clear dss ND. induction ps as [|p ps IH]; [constructor|]. cbn [map]. constructor; [|apply IH; intros q Hq; apply HF; now right].
      destruct (HF p (or_introl eq_refl)) as (_ & H1 & H2). now apply print_declares. }
    destruct (loadLines_found D zero m9999 rd _ _ HD (empty_set D) [] (empty_found D)) as (s & Es & Hh & _).
    exists s, (map (of_decl D zero m9999) (List.concat dss)). split; [|split; [exact Es|split; [exact Hh|]]].
    - unfold writeOptions. apply option_lines_real; auto. intros p Hp. split; [apply HF; assumption|intros []].
    - unfold dss. clear. induction ps as [|p ps IH]; [constructor|]. cbn [map List.concat app]. constructor; [|exact IH]. repeat split.
  Qed.

  (** ** Covariance by name *)
  Lemma cov_pos_None k ps : ~ In k (map (name D) ps) -> cov_pos D k ps = None.
  Proof.
    induction ps as [|p ps IH]; intro H; [reflexivity|]. cbn [cov_pos map] in *. rewrite IH by (intro K; apply H; now right).
    destruct (str_eqb_spec k (name D p)) as [->|]; [exfalso; apply H; now left|reflexivity].
  Qed.

  Lemma cov_pos_nth ps : NoDup (map (name D) ps) -> forall i p, nth_error ps i = Some p -> cov_pos D (name D p) ps = Some i.
  Proof.
    induction ps as [|q ps IH]; intros ND i p E; [destruct i; discriminate|]. cbn [cov_pos map] in *. inversion ND as [|? ? Hq ND']; subst.
    destruct i as [|i]; simpl in E.
    - injection E as ->. rewrite cov_pos_None by assumption. now rewrite str_eqb_refl.
    - now rewrite (IH ND' i p E).
  Qed.

  Lemma cov_by_name_ok F ps a b p q : NoDup (map (name D) ps) -> nth_error ps a = Some p -> nth_error ps b = Some q ->
    cov_by_name D F ps (name D p) (name D q) = Ok (F (a, b)).
  Proof. intros ND Ha Hb. unfold cov_by_name. now rewrite (cov_pos_nth ps ND a p Ha), (cov_pos_nth ps ND b q Hb). Qed.

  Lemma floating_indices_ok big ext ps : forall k i p, nth_error (floating D big ext ps) i = Some p ->
    exists a, nth_error (floating_indices D big ext k ps) i = Some (k + a) /\ nth_error ps a = Some p.
  Proof.
    induction ps as [|q ps IH]; intros k i p E; [destruct i; discriminate|]. unfold floating in E. cbn [filter floating_indices] in *.
    destruct (selected D big ext q).
    - destruct i as [|i]; simpl in E.
      + injection E as ->. exists 0. simpl. split; [f_equal; lia|reflexivity].
      + destruct (IH (S k) i p E) as (a & E1 & E2). exists (S a). simpl. split; [rewrite E1; f_equal; lia|exact E2].
    - destruct (IH (S k) i p E) as (a & E1 & E2). exists (S a). simpl. split; [rewrite E1; f_equal; lia|exact E2].
  Qed.

  Lemma reduced_ok big ext F ps i j p q : nth_error (floating D big ext ps) i = Some p -> nth_error (floating D big ext ps) j = Some q ->
    exists a b, nth_error ps a = Some p /\ nth_error ps b = Some q /\ reduced D F (floating_indices D big ext 0 ps) i j = Ok (F (a, b)).
  Proof.
    intros Ei Ej. destruct (floating_indices_ok big ext ps 0 i p Ei) as (a & E1 & E2). destruct (floating_indices_ok big ext ps 0 j q Ej) as (b & E3 & E4).
    exists a, b. split; [exact E2|]. split; [exact E4|]. unfold reduced. rewrite E1, E3. reflexivity.
  Qed.
End Proofs.
