From Verif.Common Require Import Prelude.
From Coq Require Import Reals Lra Lia Sorted.
From Verif.Events Require Model.
From Verif.Types Require Import Model Spec Proofs Range.
Local Open Scope nat_scope.

(** nCr gives every choice of [r] of [n] numbers, in increasing order, once. *)
Theorem C103_combinations n r : r <= n -> exists cs, nCr n r = Ok cs /\ NoDup cs /\ forall c, In c cs <-> choice n r c.
Proof. apply nCr_ok. Qed.
Print Assumptions C103_combinations.
Example combinations_ex : nCr 4 2 = Ok [[0; 1]; [0; 2]; [0; 3]; [1; 2]; [1; 3]; [2; 3]].
Proof. reflexivity. Qed.

(** ** Projections *)
Lemma choice_in n r c i : choice n r c -> In i c -> i < n.
Proof. intros (_ & _ & F) H. rewrite Forall_forall in F. apply F. exact H. Qed.
Lemma sorted_nodup (c : list nat) : StronglySorted lt c -> NoDup c.
Proof. induction 1 as [| a l S IH F]; constructor; [| exact IH]. intro H. rewrite Forall_forall in F. apply F in H. lia. Qed.
Lemma each_ok t nb m2 cs : (forall c, In c cs -> exists p, make_projection t nb c m2 = Ok p) ->
  exists ps, each_projection t nb m2 cs = Ok ps /\ map particles ps = cs /\ forall p, In p ps -> make_projection t nb (particles p) m2 = Ok p.
Proof.
  induction cs as [| c cs IH]; intro H; cbn [each_projection]; [exists []; repeat split; intros p []|].
  destruct (H c (or_introl eq_refl)) as (p & E). destruct IH as (ps & A & B & C). { intros x Hx. apply H. right. exact Hx. }
  rewrite E. cbn [bind]. rewrite A. cbn [bind]. exists (p :: ps).
  assert (P : particles p = c). { unfold make_projection in E. destruct (minmax t c); try discriminate. cbn [bind] in E. injection E as <-. destruct m2; reflexivity. }
  cbn [map]. rewrite P, B. repeat split. intros q [<-|Hq]; [rewrite P; exact E | apply C; exact Hq].
Qed.
Lemma make_ok t M nb c m2 : motherMass t = Some M -> List.length (masses t) = size t -> (forall i, In i c -> i < size t) -> exists p, make_projection t nb c m2 = Ok p.
Proof. intros HM HL H. unfold make_projection. rewrite (minmax_ok t M c HM HL H). cbn [bind]. eexists. reflexivity. Qed.
Lemma nodup_app_lists (a b : list (list nat)) : NoDup a -> NoDup b -> (forall x, In x a -> ~ In x b) -> NoDup (a ++ b).
Proof.
  induction a as [| x a IH]; intros H1 H2 H3; cbn; [exact H2|]. inversion H1; subst. constructor.
  - rewrite in_app_iff. intros [C|C]; [contradiction | exact (H3 x (or_introl eq_refl) C)].
  - apply IH; [assumption | exact H2 | intros y Hy; apply H3; right; exact Hy].
Qed.

(** The default projections are one for each choice of two or more of the particles but not all, and every event of the decay has its value
    inside the range of each. *)
Theorem C103_projections t M nb m2 : motherMass t = Some M -> List.length (masses t) = size t ->
  exists ps, defaultProjections t nb m2 = Ok ps /\ NoDup (map particles ps) /\
    (forall c, In c (map particles ps) <-> exists r, 2 <= r < size t /\ choice (size t) r c) /\
    (forall p e, In p ps -> decay M (masses t) e -> exists v, project p e = Ok v /\ (low p <= v < high p)%R) /\
    (forall p, In p ps -> root p = negb m2 /\ nBins p = nb).
Proof.
  intros HM HL. unfold defaultProjections.
  assert (L : forall rs, (forall r, In r rs -> 2 <= r < size t) -> NoDup rs -> exists ps, projections_loop t nb m2 rs = Ok ps /\ NoDup (map particles ps) /\
    (forall c, In c (map particles ps) <-> exists r, In r rs /\ choice (size t) r c) /\ forall p, In p ps -> make_projection t nb (particles p) m2 = Ok p).
  { induction rs as [| r rs IH]; intros Hr Hn; cbn [projections_loop].
    - exists []. split; [reflexivity|]. split; [constructor|]. split; [| intros p []]. intro c. split; [intros [] | intros (r & [] & _)].
    - inversion Hn as [| ? ? Hnr Hn']; subst. destruct (Hr r (or_introl eq_refl)) as [R1 R2].
      destruct (nCr_ok (size t) r ltac:(lia)) as (cs & A & B & C). rewrite A. cbn [bind].
      destruct (each_ok t nb m2 cs) as (ps & E & F & G). { intros c Hc. apply C in Hc. apply (make_ok t M nb c m2 HM HL). intros i Hi. exact (choice_in _ _ _ _ Hc Hi). }
      destruct (IH (fun x Hx => Hr x (or_intror Hx)) Hn') as (qs & E' & N' & F' & G').
      rewrite E. cbn [bind]. rewrite E'. cbn [bind]. exists (ps ++ qs). split; [reflexivity|]. rewrite map_app, F. split; [| split].
      + apply nodup_app_lists; [exact B | exact N' |]. intros c Hc Hc'. apply C in Hc as (Lc & _). apply F' in Hc' as (r' & Hr' & (Lc' & _)). rewrite Lc in Lc'. subst r'. contradiction.
      + intro c. rewrite in_app_iff, C, F'. split.
        * intros [H|(r' & H1 & H2)]; [exists r; split; [left; reflexivity | exact H] | exists r'; split; [right; exact H1 | exact H2]].
        * intros (r' & [<-|H1] & H2); [left; exact H2 | right; exists r'; auto].
      + intros p Hp. apply in_app_iff in Hp as [Hp|Hp]; [apply G; exact Hp | apply G'; exact Hp]. }
  destruct (L (seq 2 (size t - 2))) as (ps & A & B & C & D). { intros r H. apply in_seq in H. lia. } { apply seq_NoDup. }
  exists ps. split; [exact A|]. split; [exact B|].
  assert (C' : forall c, In c (map particles ps) <-> exists r, 2 <= r < size t /\ choice (size t) r c).
  { intro c. rewrite C. split; intros (r & H1 & H2); exists r; (split; [| exact H2]); [apply in_seq in H1; lia | apply in_seq; lia]. }
  split; [exact C'|]. split.
  - intros p e Hp He. pose proof (D p Hp) as E. destruct (proj1 (C' (particles p)) (in_map particles ps p Hp)) as (r & Hr & Hc).
    assert (Hi : forall i, In i (particles p) -> i < size t) by (intros i Hi; exact (choice_in _ _ _ _ Hc Hi)).
    unfold make_projection in E. rewrite (minmax_ok t M _ HM HL Hi) in E. cbn [bind fst snd] in E.
    destruct (mass_range M (masses t) e (particles p) He (sorted_nodup _ (proj1 (proj2 Hc)))) as (R1 & R2 & R3 & R4). { rewrite HL. exact Hi. }
    cbv zeta in R1, R2, R3, R4.
    set (lo := sum (fun i => nth i (masses t) 0%R) (particles p)) in *.
    set (hi := (M - sum (fun i => nth i (masses t) 0%R) (filter (fun i => negb (existsb (Nat.eqb i) (particles p))) (seq 0 (List.length (masses t)))))%R) in *.
    unfold project. rewrite s_all_ok; [| intros i Hin; apply Hi in Hin; destruct He as (_ & Le & _); lia]. cbn [bind].
    eexists. split; [reflexivity|]. set (sv := mass2 e (particles p)) in *. destruct m2; injection E as E; rewrite <- E; cbn [root low high].
    + lra.
    + assert (S0 : (0 <= sv)%R) by nra. pose proof (sqrt_pos sv) as SP. pose proof (sqrt_sqrt sv S0) as SS.
      assert (S1 : (lo <= sqrt sv)%R) by (apply le_of_squares; [exact SP | rewrite SS; exact R3]).
      assert (S2 : (sqrt sv <= hi)%R) by (apply le_of_squares; [lra | rewrite SS; exact R4]).
      destruct (Rlt_dec (5 / 100) lo); lra.
  - intros p Hp. pose proof (D p Hp) as E. unfold make_projection in E. destruct (minmax t (particles p)); try discriminate. cbn [bind] in E. injection E as E. rewrite <- E. destruct m2; split; reflexivity.
Qed.
Print Assumptions C103_projections.

(** With ten particles or fewer no two of them have the same name. *)
Lemma one_digit i : i < 10 -> exists c, Events.Model.to_string i = [c].
Proof. intro H. do 10 (destruct i as [| i]; [eexists; reflexivity|]). lia. Qed.
Lemma digit_inj i j : i < 10 -> j < 10 -> Events.Model.to_string i = Events.Model.to_string j -> i = j.
Proof. intros Hi Hj. do 10 (destruct i as [| i]; [do 10 (destruct j as [| j]; [first [reflexivity | (intro H; discriminate)]|]); lia|]). lia. Qed.
Theorem C103_names_partial t nb m2 c c' p p' : size t <= 10 -> (forall i, In i c -> i < size t) -> (forall i, In i c' -> i < size t) ->
  make_projection t nb c m2 = Ok p -> make_projection t nb c' m2 = Ok p' -> pname p = pname p' -> c = c'.
Proof.
  intros Ht Hc Hc' E E' N.
  assert (X : List.concat (map Events.Model.to_string c) = List.concat (map Events.Model.to_string c')).
  { unfold make_projection in E, E'. destruct (minmax t c); try discriminate. destruct (minmax t c'); try discriminate. cbn [bind] in E, E'. injection E as <-. injection E' as <-.
    destruct m2; cbn [pname] in N; injection N; auto. }
  clear E E' N. revert c' Hc' X. induction c as [| i c IH]; intros c' Hc' X.
  - destruct c' as [| j c']; [reflexivity|]. destruct (one_digit j) as (d & Ed); [pose proof (Hc' j (or_introl eq_refl)); lia|]. cbn [map List.concat] in X. rewrite Ed in X. cbn in X. discriminate.
  - destruct (one_digit i) as (d & Ed); [pose proof (Hc i (or_introl eq_refl)); lia|]. destruct c' as [| j c']; [cbn [map List.concat] in X; rewrite Ed in X; cbn in X; discriminate|].
    destruct (one_digit j) as (d' & Ed'); [pose proof (Hc' j (or_introl eq_refl)); lia|]. cbn [map List.concat] in X. rewrite Ed, Ed' in X. cbn [app] in X. injection X as X1 X2.
    assert (i = j) by (apply digit_inj; [pose proof (Hc i (or_introl eq_refl)); lia | pose proof (Hc' j (or_introl eq_refl)); lia | congruence]). subst j. f_equal.
    apply IH; [intros x Hx; apply Hc; right; exact Hx | intros x Hx; apply Hc'; right; exact Hx | exact X2].
Qed.
Print Assumptions C103_names_partial.
(** With thirteen, the projections on the particles 0, 1, 2 and on 0, 12 are both called s012. *)
Theorem C103_names_refuted : exists t nb r r' c c' p p', choice (size t) r c /\ choice (size t) r' c' /\ 2 <= r < size t /\ 2 <= r' < size t /\
  make_projection t nb c true = Ok p /\ make_projection t nb c' true = Ok p' /\ pname p = pname p' /\ c <> c'.
Proof.
  set (t := EType (S_ "X") (Some 100%R) (repeat (S_ "pi0") 13) (repeat 1%R 13) false []).
  assert (HL : List.length (masses t) = size t) by reflexivity.
  destruct (make_ok t 100%R 100 [0; 1; 2] true eq_refl HL) as (p & E). { cbn. intros i H. unfold size. cbn. lia. }
  destruct (make_ok t 100%R 100 [0; 12] true eq_refl HL) as (p' & E'). { cbn. intros i H. unfold size. cbn. lia. }
  exists t, 100, 3, 2, [0; 1; 2], [0; 12], p, p'. unfold size. cbn [t names repeat List.length].
  split; [repeat split; repeat constructor; lia|]. split; [repeat split; repeat constructor; lia|]. split; [lia|]. split; [lia|]. split; [exact E|]. split; [exact E'|]. split; [| discriminate].
  unfold make_projection in E, E'. destruct (minmax t [0; 1; 2]); try discriminate. destruct (minmax t [0; 12]); try discriminate. cbn [bind] in E, E'.
  injection E as <-. injection E' as <-. reflexivity.
Qed.
Print Assumptions C103_names_refuted.

(** ** Names *)
(** count: how many particles of the same name come before, and how many there are. *)
Theorem C103_count t index x : nth_error (names t) index = Some x -> count t index = (occurrences x (firstn index (names t)), occurrences x (names t)).
Proof.
  intro H. unfold count. rewrite H.
  set (f := fun (rt : nat * nat) j => if match nth_error (names t) j with Some y => str_eqb y x | None => false end then (if j <? index then S (fst rt) else fst rt, S (snd rt)) else rt).
  assert (L : forall m, m <= size t -> fold_left f (seq 0 m) (0, 0) = (occurrences x (firstn (Nat.min m index) (names t)), occurrences x (firstn m (names t)))).
  { assert (FS : forall m y, nth_error (names t) m = Some y -> firstn (S m) (names t) = firstn m (names t) ++ [y]).
    { generalize (names t) as l. clear. induction l as [| z l IH]; intros m y E; [destruct m; discriminate|]. destruct m as [| m]; [injection E as ->; reflexivity|]. cbn [firstn app]. f_equal. apply IH. exact E. }
    induction m as [| m IH]; intro Hm; [reflexivity|]. rewrite seq_S, fold_left_app, IH by lia. cbn [plus fold_left].
    destruct (nth_error (names t) m) as [y|] eqn:E; [| apply nth_error_None in E; unfold size in Hm; lia].
    assert (OA : forall l, occurrences x (l ++ [y]) = occurrences x l + if str_dec y x then 1 else 0).
    { intro l. unfold occurrences. rewrite count_occ_app. cbn. destruct (str_dec y x); lia. }
    unfold f at 1. rewrite E. cbn [fst snd]. destruct (str_dec y x) as [->|Hne].
    - rewrite str_eqb_refl. rewrite (FS m x E), OA. destruct (str_dec x x) as [_|]; [| contradiction]. destruct (Nat.ltb_spec m index) as [Hi|Hi].
      + rewrite (Nat.min_l m index), (Nat.min_l (S m) index) by lia. rewrite (FS m x E), OA. destruct (str_dec x x) as [_|]; [| contradiction]. f_equal; lia.
      + rewrite (Nat.min_r m index), (Nat.min_r (S m) index) by lia. f_equal; lia.
    - rewrite (proj2 (str_eqb_neq _ _) Hne). rewrite (FS m y E), OA. destruct (str_dec y x); [contradiction|]. rewrite Nat.add_0_r. f_equal.
      destruct (Nat.ltb_spec m index) as [Hi|Hi].
      + rewrite (Nat.min_l m index), (Nat.min_l (S m) index) by lia. rewrite (FS m y E), OA. destruct (str_dec y x); [contradiction|]. lia.
      + rewrite (Nat.min_r m index), (Nat.min_r (S m) index) by lia. reflexivity. }
  rewrite L by lia. assert (Hi : index < size t) by (apply nth_error_Some; congruence). rewrite Nat.min_r by lia. unfold size. rewrite firstn_all. reflexivity.
Qed.
Print Assumptions C103_count.

(** Event types are equal when mother and final states are, in order. *)
Theorem C103_equal a b : eq_type a b = true <-> mother a = mother b /\ names a = names b.
Proof.
  unfold eq_type, size. rewrite !andb_true_iff, Nat.eqb_eq. split.
  - intros [[H1 H2] H3]. split; [apply str_eqb_eq; exact H1|]. revert H2 H3. generalize (names a) as l, (names b) as l'. induction l as [| x l IH]; intros l' H2 H3; destruct l' as [| y l']; try discriminate; [reflexivity|].
    cbn in H3. apply andb_true_iff in H3 as [H3 H4]. apply str_eqb_eq in H3. f_equal; [exact H3 | apply IH; [injection H2; auto | exact H4]].
  - intros [-> ->]. split; [split; [apply str_eqb_refl | reflexivity]|]. induction (names b) as [| x l IH]; [reflexivity|]. cbn. rewrite str_eqb_refl. exact IH.
Qed.
Print Assumptions C103_equal.
(** Events of equal types need not have the same size: the decay time does not count. *)
Theorem C103_equal_refuted : exists get ns a b, construct get ns false = Ok a /\ construct get ns true = Ok b /\ eq_type a b = true /\ eventSize a <> eventSize b.
Proof.
  exists (fun _ => Some (Particle 1%R (S_ "x"))), [S_ "D0"; S_ "K-"; S_ "pi+"]. do 2 eexists. split; [reflexivity|]. split; [reflexivity|]. split; [reflexivity | cbn; lia].
Qed.
Print Assumptions C103_equal_refuted.

(** ** Conjugation *)
(** Conjugation of the particles of the table is an involution that keeps the mass, and names are not in braces. *)
Definition conjugation (get : str -> option particle) : Prop :=
  forall x p, get x = Some p -> strip x = Ok x /\ exists q, get (anti p) = Some q /\ anti q = x /\ pmass q = pmass p.
Lemma add_known get ds : conjugation get -> forall t, add_particles get ds = Ok t ->
  (forall y, In y (map fst t) -> exists p, get y = Some p) /\ add_particles get (map fst t) = Ok t /\
  exists ds', each (anti_name get) (map fst t) = Ok ds' /\ List.length ds' = List.length (map fst t) /\
    exists t', add_particles get ds' = Ok t' /\ map fst t' = ds' /\ map snd t' = map snd t /\ each (anti_name get) ds' = Ok (map fst t).
Proof.
  intro G. induction ds as [| x ds IH]; intros t E; cbn [add_particles] in E.
  - injection E as <-. cbn. split; [intros y []|]. split; [reflexivity|]. exists []. split; [reflexivity|]. split; [reflexivity|]. exists []. auto.
  - destruct (strip x) as [y| | |] eqn:Ex; try discriminate. cbn [bind] in E. destruct (get y) as [p|] eqn:Ep; [| discriminate].
    destruct (add_particles get ds) as [t0| | |] eqn:E0; try discriminate. cbn [bind] in E. injection E as <-. destruct (IH t0 eq_refl) as (A & B & ds' & C & L & t' & D1 & D2 & D3 & D4).
    destruct (G y p Ep) as (S1 & q & Q1 & Q2 & Q3). destruct (G (anti p) q Q1) as (S2 & _). cbn [map fst snd]. split; [| split].
    + intros z [<-|Hz]; [exists p; exact Ep | apply A; exact Hz].
    + cbn [add_particles]. rewrite S1. cbn [bind]. rewrite Ep, B. reflexivity.
    + exists (anti p :: ds'). cbn [each]. unfold anti_name at 1. rewrite Ep. cbn [bind]. rewrite C. cbn [bind]. split; [reflexivity|]. split; [cbn; rewrite L; reflexivity|].
      exists ((anti p, pmass q) :: t'). cbn [add_particles]. rewrite S2. cbn [bind]. rewrite Q1, D1. cbn [bind map fst snd]. rewrite D2, D3, Q3. split; [reflexivity|]. split; [reflexivity|]. split; [reflexivity|].
      unfold anti_name at 1. rewrite Q1. cbn [bind]. rewrite D4. cbn [bind]. rewrite Q2. reflexivity.
Qed.
(** The conjugate of an event type has the antiparticles in the same places with the same masses, and its conjugate is the event type. *)
Theorem C103_conjugate get ns td t : conjugation get -> construct get ns td = Ok t -> motherMass t <> None ->
  exists t', conj get false false t = Ok t' /\ conj get false false t' = Ok t /\ masses t' = masses t /\ motherMass t' = motherMass t /\ timeDependent t' = td /\
    (exists p, get (mother t) = Some p /\ mother t' = anti p) /\ (forall i x, nth_error (names t) i = Some x -> exists p, get x = Some p /\ nth_error (names t') i = Some (anti p)) /\
    size t' = size t.
Proof.
  intros G E HM. destruct ns as [| m ds]; [discriminate|]. unfold construct in E. destruct (Nat.ltb_spec (List.length (m :: ds)) 3) as [|HL]; [discriminate|].
  destruct (get m) as [p|] eqn:Em; [| injection E as <-; cbn in HM; congruence]. destruct (add_particles get ds) as [tt| | |] eqn:Ea; try discriminate. cbn [bind] in E. injection E as <-.
  destruct (add_known get ds G tt Ea) as (A & B & ds' & C & L & t' & D1 & D2 & D3 & D4). destruct (G m p Em) as (S1 & q & Q1 & Q2 & Q3).
  assert (LT : List.length (map fst tt) = List.length ds).
  { clear - Ea. revert tt Ea. induction ds as [| x ds IH]; intros tt E; cbn in E; [injection E as <-; reflexivity|]. destruct (strip x); try discriminate. cbn in E. destruct (get s); [| discriminate].
    destruct (add_particles get ds) eqn:X; try discriminate. cbn in E. injection E as <-. cbn. f_equal. apply IH. reflexivity. }
  exists (EType (anti p) (Some (pmass q)) (map fst t') (map snd t') td []). unfold conj. cbn [mother names timeDependent].
  assert (AN : anti_name get m = Ok (anti p)) by (unfold anti_name; rewrite Em; reflexivity). assert (AQ : anti_name get (anti p) = Ok m) by (unfold anti_name; rewrite Q1, Q2; reflexivity).
  assert (EA : forall l, each (fun x => if false then Ok x else anti_name get x) l = each (anti_name get) l) by reflexivity.
  rewrite AN. cbn [bind]. rewrite EA, C. cbn [bind]. unfold construct. replace (List.length (anti p :: ds') <? 3) with false by (symmetry; apply Nat.ltb_ge; cbn in *; lia).
  rewrite Q1, D1. cbn [bind]. split; [reflexivity|]. rewrite D2, AQ. cbn [bind]. rewrite EA, D4. cbn [bind].
  replace (List.length (m :: map fst tt) <? 3) with false by (symmetry; apply Nat.ltb_ge; cbn in *; lia). rewrite Em, B. cbn [bind masses motherMass]. unfold size. cbn [names].
  split; [reflexivity|]. split; [exact D3|]. split; [congruence|]. split; [reflexivity|]. split; [exists p; auto|]. split; [| exact L].
  clear - C. revert ds' C. generalize (map fst tt) as l. induction l as [| y l IH]; intros ds' C i x H; [destruct i; discriminate|]. cbn [each] in C. unfold anti_name at 1 in C.
  destruct (get y) as [r|] eqn:Ey; [| discriminate]. cbn [bind] in C. destruct (each (anti_name get) l) as [d| | |] eqn:El; try discriminate. cbn [bind] in C. injection C as <-.
  destruct i as [| i]; [injection H as <-; exists r; auto | cbn in H; exact (IH d eq_refl i x H)].
Qed.
Print Assumptions C103_conjugate.
(** The conjugate forgets the extensions of the event type. *)
Theorem C103_conjugate_refuted : exists get t t', conjugation get /\ construct get [S_ "D0"; S_ "pi0"; S_ "pi0"] false = Ok t /\
  conj get false false (extendEventType (S_ "tag") t) = Ok t' /\ extensions (extendEventType (S_ "tag") t) = [S_ "tag"] /\ extensions t' = [].
Proof.
  exists (fun x => if str_eqb x (S_ "D0") then Some (Particle 1%R (S_ "D0")) else if str_eqb x (S_ "pi0") then Some (Particle 1%R (S_ "pi0")) else None). do 2 eexists. split.
  { intros x p H. destruct (str_eqb x (S_ "D0")) eqn:A.
    - apply str_eqb_eq in A. subst x. injection H as <-. split; [reflexivity|]. eexists. split; [reflexivity|]. auto.
    - destruct (str_eqb x (S_ "pi0")) eqn:B; [| discriminate]. apply str_eqb_eq in B. subst x. injection H as <-. split; [reflexivity|]. eexists. split; [reflexivity|]. auto. }
  split; [reflexivity|]. split; [reflexivity|]. split; reflexivity.
Qed.
Print Assumptions C103_conjugate_refuted.

(** ** Construction *)
(** An event type of known particles has them in order, with their masses; fewer than two final states are refused. *)
Theorem C103_construct_partial get m ds td p : get m = Some p -> 2 <= List.length ds -> (forall x, In x ds -> strip x = Ok x /\ get x <> None) ->
  exists t, construct get (m :: ds) td = Ok t /\ mother t = m /\ names t = ds /\ motherMass t = Some (pmass p) /\ List.length (masses t) = size t /\
    forall i x, nth_error ds i = Some x -> exists q, get x = Some q /\ nth_error (masses t) i = Some (pmass q).
Proof.
  intros Hm HL H. unfold construct. replace (List.length (m :: ds) <? 3) with false by (symmetry; apply Nat.ltb_ge; cbn; lia). rewrite Hm. clear HL.
  assert (K : exists t, add_particles get ds = Ok t /\ map fst t = ds /\ forall i x, nth_error ds i = Some x -> exists q, get x = Some q /\ nth_error (map snd t) i = Some (pmass q)).
  { induction ds as [| x ds IH]; [exists []; repeat split; intros [|] x; discriminate|]. destruct IH as (t & A & B & C). { intros y Hy. apply H. right. exact Hy. }
    destruct (H x (or_introl eq_refl)) as [S1 S2]. cbn [add_particles]. rewrite S1. cbn [bind]. destruct (get x) as [q|] eqn:Eq; [| contradiction]. rewrite A. cbn [bind]. eexists. split; [reflexivity|]. cbn. rewrite B. split; [reflexivity|].
    intros [| i] y Hy; [injection Hy as <-; exists q; auto | apply C; exact Hy]. }
  destruct K as (t & A & B & C). rewrite A. cbn [bind]. eexists. split; [reflexivity|]. cbn. rewrite B. repeat split; auto. unfold size. cbn. rewrite <- B, !map_length. reflexivity.
Qed.
Print Assumptions C103_construct_partial.
(** With a mother that is not known the construction does not fail: it leaves an event type without particles. Without any name it is
    undefined. *)
Theorem C103_construct_refuted : (exists get ns t, List.length ns = 3 /\ construct get ns false = Ok t /\ size t = 0 /\ motherMass t = None) /\ (exists get, construct get [] false = UB).
Proof. split; [exists (fun _ => None), [S_ "D0"; S_ "K-"; S_ "pi+"]; eexists; repeat split | exists (fun _ => None); reflexivity]. Qed.
Print Assumptions C103_construct_refuted.

(** A decay at rest: two particles back to back. *)
Example decay_ex : decay 4 [1; 1; 0]%R [0; 0; 0; 1; 0; 0; 0; 1; 0; 0; 0; 0]%R -> False.
Proof. intros (_ & _ & H & _). cbn in H. unfold mass2, at_ in H. cbn in H. lra. Qed.
Example decay_ex3 : decay 2 [1; 1; 0]%R [0; 0; 0; 1; 0; 0; 0; 1; 0; 0; 0; 0]%R.
Proof.
  unfold decay. split; [lra|]. split; [cbn; lia|]. split; [unfold mass2, at_; cbn; lra|]. intros [| [| [| i]]] m H; cbn in H; [injection H as <- ..|destruct i; discriminate]; unfold mass2, at_; cbn; repeat split; lra.
Qed.
