From Verif.Common Require Import Prelude.
From Verif.Options Require Import Model Spec.

(** * C09 *)

Lemma isblank_spec c : isblank c = true <-> blank_char c.
Proof.
  unfold isblank, blank_char. rewrite orb_true_iff, !Ascii.eqb_eq. reflexivity.
Qed.

Lemma isblank_false c : isblank c = false <-> ~ blank_char c.
Proof. rewrite <- isblank_spec. destruct (isblank c); split; congruence. Qed.

Lemma plain_tests c : plain c -> isblank c = false /\ Ascii.eqb c """" = false /\ Ascii.eqb c "#" = false.
Proof.
  intros (H1 & H2 & H3 & H4). split; [|split].
  - apply isblank_false. intros [|]; contradiction.
  - now apply Ascii.eqb_neq.
  - now apply Ascii.eqb_neq.
Qed.

Lemma scan_plain_step cur pb d c t : plain c ->
  scan cur pb false d (c :: t) = scan (if pb then [c] else cur ++ [c]) false false (d + balance [c]) t.
Proof.
  intro H. destruct (plain_tests c H) as (B & Q & K). cbn [scan]. rewrite B, Q, K. cbn [negb andb orb app].
  rewrite !andb_true_r. rewrite <- surjective_pairing. f_equal. cbn [balance].
  destruct (Ascii.eqb c "{"); [lia|]. destruct (Ascii.eqb c "}"); lia.
Qed.

Lemma balance_app u v : balance (u ++ v) = (balance u + balance v)%Z.
Proof. induction u as [|c u IH]; [reflexivity|]. cbn [app balance]. rewrite IH. lia. Qed.

Lemma scan_plain w : Forall plain w -> forall cur d t,
  scan cur false false d (w ++ t) = scan (cur ++ w) false false (d + balance w) t.
Proof.
  induction 1 as [|c w Hc _ IH]; intros cur d t.
  - simpl. now rewrite app_nil_r, Z.add_0_r.
  - simpl app. rewrite scan_plain_step by assumption. rewrite IH, <- app_assoc. simpl app.
    f_equal. cbn [balance]. lia.
Qed.

Lemma scan_sep cur d c t : blank_char c \/ c = """"%char ->
  scan cur false false d (c :: t) = (cur :: fst (scan cur true false d (c :: t)), snd (scan cur true false d (c :: t))).
Proof.
  intros [H | ->].
  - assert (Hh : Ascii.eqb c "#" = false) by (apply Ascii.eqb_neq; destruct H as [-> | ->]; discriminate).
    apply isblank_spec in H. cbn [scan]. rewrite Hh, H. reflexivity.
  - reflexivity.
Qed.

Lemma scan_quoted q : ~ In """"%char q -> forall cur d t,
  scan cur false true d (q ++ """"%char :: t) =
  ((cur ++ q) :: fst (scan (cur ++ q) true false d t), snd (scan (cur ++ q) true false d t)).
Proof.
  induction q as [|c q IH]; intros H cur d t.
  - rewrite app_nil_r. reflexivity.
  - assert (Hc : Ascii.eqb c """" = false) by (apply Ascii.eqb_neq; intros ->; apply H; now left).
    cbn [app scan]. rewrite Hc. cbn [negb andb orb app]. rewrite !andb_false_r.
    rewrite IH by (intro K; apply H; now right). rewrite <- app_assoc. reflexivity.
Qed.

Lemma scan_reads s ws b : reads s ws b -> forall cur d,
  scan cur true false d (s ++ [" "%char]) = (ws, (d + b)%Z).
Proof.
  induction 1 as [|c s ws b Hc _ IH|s|w s ws b Hne Hw Hs _ IH|q s ws b Hne Hq _ IH|s ws b _ IH]; intros cur d.
  - simpl. now rewrite Z.add_0_r.
  - assert (Hh : Ascii.eqb c "#" = false) by (apply Ascii.eqb_neq; destruct Hc as [-> | ->]; discriminate).
    assert (Hq : Ascii.eqb c """" = false) by (apply Ascii.eqb_neq; destruct Hc as [-> | ->]; discriminate).
    assert (Ho : Ascii.eqb c "{" = false) by (apply Ascii.eqb_neq; destruct Hc as [-> | ->]; discriminate).
    assert (Hcl : Ascii.eqb c "}" = false) by (apply Ascii.eqb_neq; destruct Hc as [-> | ->]; discriminate).
    apply isblank_spec in Hc. cbn [app scan]. rewrite Hh, Hc, Hq, Ho, Hcl. cbn [negb andb orb app].
    rewrite IH. reflexivity.
  - simpl. now rewrite Z.add_0_r.
  - destruct w as [|c w]; [congruence|]. inversion Hw as [|? ? Hc Hw']; subst.
    rewrite <- app_assoc. cbn [app]. rewrite scan_plain_step by assumption. rewrite scan_plain by assumption.
    assert (Hs' : exists e t, s ++ [" "%char] = e :: t /\ (blank_char e \/ e = """"%char)).
    { destruct s as [|e s]; [exists " "%char, []; split; [reflexivity|left; now left]|].
      exists e, (s ++ [" "%char]). split; [reflexivity|exact Hs]. }
    destruct Hs' as (e & t & Et & He). rewrite Et, scan_sep by assumption. rewrite <- Et, IH. cbn [fst snd app].
    f_equal. cbn [balance]. lia.
  - destruct q as [|c q]; [congruence|].
    assert (Hc : Ascii.eqb c """" = false) by (apply Ascii.eqb_neq; intros ->; apply Hq; now left).
    replace ((""""%char :: (c :: q) ++ """"%char :: s) ++ [" "%char]) with
      (""""%char :: c :: q ++ """"%char :: (s ++ [" "%char])) by (simpl; rewrite <- app_assoc; reflexivity).
    cbn [scan]. rewrite Hc. cbn. rewrite !andb_false_r.
    rewrite scan_quoted by (intro K; apply Hq; now right). cbn [fst snd app]. rewrite IH. reflexivity.
  - cbn [app]. cbn [scan]. cbn. rewrite IH. reflexivity.
Qed.

Lemma makeParsedStrings_reads line ws b : reads line ws b -> forall d, makeParsedStrings line d = (ws, (d + b)%Z).
Proof.
  intros H d. unfold makeParsedStrings. destruct line as [|c s] eqn:E.
  - assert (ws = [] /\ b = 0%Z) as [-> ->].
    { inversion H; subst; try (now split). destruct w; [congruence|discriminate]. }
    now rewrite Z.add_0_r.
  - rewrite <- E in *. apply (scan_reads (" "%char :: line) ws b).
    apply r_blank; [now left|assumption].
Qed.

Lemma pieces_gap g ws s : pieces ws s -> pieces ws (g ++ s).
Proof.
  intros [g'|g' w ws' s' H]; [constructor|]. rewrite app_assoc. now constructor.
Qed.

(** Whatever the line, the words returned are pieces of it, in order. *)
Lemma scan_pieces x s : forall cur pb q d,
  pieces (fst (scan cur pb q d (s ++ [x]))) (if pb then s else cur ++ s).
Proof.
  induction s as [|c s IH]; intros cur pb q d.
  - cbn [app scan]. destruct (negb q && Ascii.eqb x "#"); [constructor|]. cbn [fst].
    destruct ((negb q && isblank x) || Ascii.eqb x """"); destruct pb; simpl; try constructor.
    exact (p_cons [] cur [] [] (p_nil [])).
  - cbn [app scan]. destruct (negb q && Ascii.eqb c "#"); [constructor|].
    set (sep := (negb q && isblank c) || Ascii.eqb c """").
    set (q' := if Ascii.eqb c """" then negb q else q).
    set (d' := if Ascii.eqb c "{" && negb q' then _ else _).
    specialize (IH (if sep then cur else if pb then [c] else cur ++ [c]) sep q' d').
    cbn [fst]. destruct sep; destruct pb; cbn [negb andb app].
    + exact (pieces_gap [c] _ _ IH).
    + rewrite <- (app_nil_l (cur ++ c :: s)). constructor. exact (pieces_gap [c] _ _ IH).
    + exact IH.
    + rewrite <- app_assoc in IH. exact IH.
Qed.

Lemma makeParsedStrings_pieces line d : pieces (fst (makeParsedStrings line d)) line.
Proof.
  unfold makeParsedStrings. destruct line as [|c s] eqn:E; [constructor|]. rewrite <- E.
  cbn [app scan]. cbn. apply (scan_pieces " "%char line [] true false d).
Qed.

(** The words do not depend on the depth and the depth changes by a constant. *)
Lemma scan_depth s : forall cur pb q d,
  scan cur pb q d s = (fst (scan cur pb q 0 s), (d + snd (scan cur pb q 0 s))%Z).
Proof.
  induction s as [|c s IH]; intros cur pb q d; [simpl; now rewrite Z.add_0_r|].
  cbn [scan]. destruct (negb q && Ascii.eqb c "#"); [simpl; now rewrite Z.add_0_r|].
  set (sep := (negb q && isblank c) || Ascii.eqb c """").
  set (q' := if Ascii.eqb c """" then negb q else q).
  rewrite (IH _ _ _ (if Ascii.eqb c "{" && negb q' then (d + 1)%Z else _)).
  rewrite (IH _ _ _ (if Ascii.eqb c "{" && negb q' then (0 + 1)%Z else _)).
  cbn [fst snd]. f_equal. destruct (Ascii.eqb c "{" && negb q'); [lia|]. destruct (Ascii.eqb c "}" && negb q'); lia.
Qed.

Definition words (l : str) : list str := fst (makeParsedStrings l 0).
Definition bal (l : str) : Z := snd (makeParsedStrings l 0).

Lemma makeParsedStrings_depth l d : makeParsedStrings l d = (words l, (d + bal l)%Z).
Proof.
  unfold words, bal, makeParsedStrings. destruct l as [|c s]; [simpl; now rewrite Z.add_0_r|]. apply scan_depth.
Qed.

(** * C10 *)

Lemma map_find_set k k' v m : map_find k (map_set k' v m) = if str_eqb k k' then Some v else map_find k m.
Proof.
  induction m as [|[k2 v2] m IH]; simpl; [reflexivity|].
  destruct (str_eqb_spec k' k2) as [->|N].
  - simpl. destruct (str_eqb k k2); reflexivity.
  - simpl. rewrite IH. destruct (str_eqb_spec k k2) as [->|]; [|reflexivity].
    destruct (str_eqb_spec k2 k'); [congruence|reflexivity].
Qed.

Lemma addArg_option imp l p : option_line l -> addArg imp l p =
  Ok {| parsed := map_set (hd [] l) l (parsed p); ordered := ordered p ++ [hd [] l]; calls := calls p |}.
Proof.
  destruct l as [|k t]; [intros []|]. unfold option_line, addArg, is_particle_keyword. cbn [In]. intro H.
  repeat match goal with |- context [str_eqb k ?x] => destruct (str_eqb_spec k x); [exfalso; apply H; subst; tauto|] end. reflexivity.
Qed.

Lemma feed_options imp h : Forall option_line h -> forall p, exists p',
  feed (addArg imp) h p = Ok p' /\
  (forall k, map_find k (parsed p') = match last_with_key k h with Some l => Some l | None => map_find k (parsed p) end) /\
  ordered p' = ordered p ++ map (hd []) h.
Proof.
  induction 1 as [|l h Hl _ IH]; intro p.
  - exists p. split; [reflexivity|]. split; [reflexivity|]. simpl. now rewrite app_nil_r.
  - cbn [feed]. rewrite (addArg_option imp l p Hl). cbn [bind].
    destruct (IH {| parsed := map_set (hd [] l) l (parsed p); ordered := ordered p ++ [hd [] l]; calls := calls p |})
      as (p' & E & Hf & Ho).
    exists p'. split; [exact E|]. split.
    + intro k. rewrite Hf. simpl parsed. cbn [last_with_key]. destruct (last_with_key k h); [reflexivity|].
      rewrite map_find_set. destruct l as [|k' t]; [destruct Hl|]. simpl. destruct (str_eqb k k'); reflexivity.
    + rewrite Ho. simpl. now rewrite <- app_assoc.
Qed.

Lemma last_with_key_hd l h : option_line l -> In l h -> exists r, last_with_key (hd [] l) h = Some r /\ hd [] r = hd [] l /\ In r h.
Proof.
  intros Hl. induction h as [|x h IH]; intro H; [destruct H|]. cbn [last_with_key].
  destruct (last_with_key (hd [] l) h) as [r|] eqn:E.
  - destruct H as [<-|H].
    + exists r. assert (G : forall k h r, last_with_key k h = Some r -> hd [] r = k /\ In r h).
      { clear. intros k h. induction h as [|x h IH]; intros r E; [discriminate|]. cbn [last_with_key] in E.
        destruct (last_with_key k h) as [r'|]; [injection E as <-; destruct (IH r' eq_refl); split; [assumption|now right]|].
        destruct x as [|k' t]; [discriminate|]. destruct (str_eqb_spec k k') as [->|]; [|discriminate].
        injection E as <-. split; [reflexivity|now left]. }
      destruct (G _ _ _ E). repeat split; [assumption|now right].
    + destruct (IH H) as (r' & E' & Hh & Hin). injection E' as <-. exists r. repeat split; [assumption|now right].
  - destruct H as [->|H].
    + destruct l as [|k t]; [destruct Hl|]. simpl. rewrite str_eqb_refl. exists (k :: t). repeat split. now left.
    + destruct (IH H) as (r' & E' & _). discriminate.
Qed.

Lemma lookup_all_ok m keys f : (forall k, In k keys -> map_find k m = Some (f k)) -> lookup_all m keys = Ok (map f keys).
Proof.
  induction keys as [|k ks IH]; intro H; [reflexivity|]. simpl. rewrite (H k) by now left.
  rewrite IH by (intros k' Hk; apply H; now right). reflexivity.
Qed.

Lemma inputs_ordered imp h : Forall option_line h -> exists p,
  feed (addArg imp) h empty_parser = Ok p /\
  (forall k, map_find k (parsed p) = last_with_key k h) /\
  getInputOrdered p = Ok (map (fun l => current h (hd [] l)) h).
Proof.
  intro H. destruct (feed_options imp h H empty_parser) as (p & E & Hf & Ho). exists p. split; [exact E|]. split.
  - intro k. rewrite Hf. simpl. destruct (last_with_key k h); reflexivity.
  - unfold getInputOrdered. rewrite Ho. simpl. rewrite (lookup_all_ok _ _ (current h)); [now rewrite map_map|].
    intros k Hk. apply in_map_iff in Hk as (l & <- & Hl). rewrite Hf. simpl. unfold current.
    rewrite Forall_forall in H. destruct (last_with_key_hd l h (H l Hl) Hl) as (r & -> & _). reflexivity.
Qed.

Lemma distinct_current h : Forall option_line h -> NoDup (map (hd []) h) -> forall l, In l h -> current h (hd [] l) = l.
Proof.
  intros H ND l Hl. unfold current. rewrite Forall_forall in H.
  destruct (last_with_key_hd l h (H l Hl) Hl) as (r & -> & Hh & Hr).
  assert (G : forall (h : list (list str)) a b, NoDup (map (hd []) h) -> In a h -> In b h -> hd [] a = hd [] b -> a = b).
  { clear. induction h as [|x h IH]; intros a b ND Ha Hb E; [destruct Ha|]. inversion ND as [|? ? Hx ND']; subst.
    destruct Ha as [->|Ha], Hb as [->|Hb]; [reflexivity| | |now apply IH].
    - exfalso. apply Hx. rewrite E. now apply in_map.
    - exfalso. apply Hx. rewrite <- E. now apply in_map. }
  now apply (G h).
Qed.

Lemma inputs_distinct imp h : Forall option_line h -> NoDup (map (hd []) h) -> exists p,
  feed (addArg imp) h empty_parser = Ok p /\ getInputOrdered p = Ok h.
Proof.
  intros H ND. destruct (inputs_ordered imp h H) as (p & E & _ & Hg). exists p. split; [exact E|]. rewrite Hg.
  f_equal. rewrite <- (map_id h) at 2. apply map_ext_in. intros l Hl. now apply distinct_current.
Qed.

(** * C11 *)

Lemma isCurlyBrace_spec w : isCurlyBrace w = true <-> brace_word w.
Proof. unfold isCurlyBrace, brace_word. now rewrite orb_true_iff, !str_eqb_eq. Qed.

Definition strip (l : list str) : list str := filter (fun t => negb (isCurlyBrace t)) l.

Lemma strip_stripped l : stripped l (strip l).
Proof.
  unfold strip. induction l as [|w l IH]; [constructor|]. simpl. destruct (isCurlyBrace w) eqn:E; simpl.
  - apply isCurlyBrace_spec in E. now constructor.
  - apply st_keep; [|assumption]. intro K. apply isCurlyBrace_spec in K. congruence.
Qed.

Lemma stripped_strip l r : stripped l r -> r = strip l.
Proof.
  unfold strip. induction 1 as [|w l r H _ IH|w l r H _ IH]; [reflexivity| |]; simpl.
  - apply isCurlyBrace_spec in H. rewrite H. exact IH.
  - destruct (isCurlyBrace w) eqn:E; [apply isCurlyBrace_spec in E; contradiction|]. simpl. now f_equal.
Qed.

Lemma lines_loop_cons {A} (add : list str -> A -> res A) l ls cur d a : ignoreThisLine l = false -> words l <> [] ->
  lines_loop add (l :: ls) cur d a =
  if Z.eqb (d + bal l) 0 then bind (add (strip (cur ++ words l)) a) (fun a' => lines_loop add ls [] 0 a')
  else lines_loop add ls (cur ++ words l) (d + bal l) a.
Proof.
  intros Hi Hw. cbn [lines_loop]. rewrite Hi, makeParsedStrings_depth.
  destruct (words l) as [|w ws] eqn:E; [contradiction|]. destruct (Z.eqb_spec (d + bal l) 0) as [->|]; reflexivity.
Qed.

(** Running inside a chunk whose prefixes stay unbalanced. *)
Lemma lines_loop_chunk {A} (add : list str -> A -> res A) chunk rest : forall cur d a,
  Forall (fun l => ignoreThisLine l = false /\ words l <> []) chunk -> chunk <> [] ->
  (d + total bal chunk = 0)%Z ->
  (forall pre suf, chunk = pre ++ suf -> pre <> [] -> suf <> [] -> (d + total bal pre <> 0)%Z) ->
  lines_loop add (chunk ++ rest) cur d a =
  bind (add (strip (cur ++ List.concat (map words chunk))) a) (fun a' => lines_loop add rest [] 0 a').
Proof.
  induction chunk as [|l chunk IH]; intros cur d a F Hne Ht Hp; [contradiction|].
  inversion F as [|? ? [Hi Hw] F']; subst. cbn [app]. rewrite lines_loop_cons by assumption.
  destruct chunk as [|m chunk].
  - unfold total in Ht. simpl in Ht. destruct (Z.eqb_spec (d + bal l) 0); [|lia]. simpl. now rewrite app_nil_r.
  - destruct (Z.eqb_spec (d + bal l) 0) as [E|N].
    + exfalso. apply (Hp [l] (m :: chunk) eq_refl); [discriminate|discriminate|]. unfold total. simpl. lia.
    + rewrite IH; [| |discriminate| |].
      * cbn [map List.concat]. rewrite <- app_assoc. reflexivity.
      * assumption.
      * unfold total in *. cbn [map fold_right] in *. lia.
      * intros pre suf E Hpre Hsuf. specialize (Hp (l :: pre) suf). unfold total in *. cbn [map fold_right app] in *.
        rewrite E in Hp. specialize (Hp eq_refl ltac:(discriminate) Hsuf). lia.
Qed.

Lemma lines_loop_logical {A} (add : list str -> A -> res A) lines out :
  Forall (fun l => ignoreThisLine l = false /\ words l <> []) lines ->
  logical words bal lines out -> forall a, lines_loop add lines [] 0 a = feed add out a.
Proof.
  intros F H. induction H as [|chunk rest line out Hne Ht Hp Hs _ IH]; intro a; [reflexivity|].
  apply Forall_app in F as [Fc Fr]. rewrite lines_loop_chunk; try assumption.
  cbn [app]. rewrite <- (stripped_strip _ _ Hs). cbn [feed]. destruct (add line a); cbn [bind]; [apply IH; assumption|reflexivity..].
Qed.

(** For every file: what is delivered, followed by what is still pending at the end, is the whole text. *)
Lemma lines_loop_conserves lines : forall cur d,
  exists out pending,
    (forall A (add : list str -> A -> res A) a, lines_loop add lines cur d a = feed add out a) /\
    List.concat out ++ strip pending =
      strip (cur ++ List.concat (map words (filter (fun l => negb (ignoreThisLine l)) lines))).
Proof.
  induction lines as [|l lines IH]; intros cur d.
  - exists [], cur. split; [reflexivity|]. simpl. now rewrite app_nil_r.
  - cbn [filter]. destruct (ignoreThisLine l) eqn:Hi; cbn [negb].
    + destruct (IH cur d) as (out & pend & H1 & H2). exists out, pend. split; [|exact H2].
      intros A add a. cbn [lines_loop]. rewrite Hi. apply H1.
    + cbn [map List.concat]. destruct (words l) as [|w ws] eqn:Ew.
      * destruct (IH cur (d + bal l)%Z) as (out & pend & H1 & H2). exists out, pend. split; [|exact H2].
        intros A add a. cbn [lines_loop]. rewrite Hi, makeParsedStrings_depth, Ew, app_nil_r. apply H1.
      * assert (Hw : words l <> []) by (rewrite Ew; discriminate).
        destruct (Z.eqb_spec (d + bal l) 0) as [E|N].
        -- destruct (IH [] 0%Z) as (out & pend & H1 & H2). exists (strip (cur ++ words l) :: out), pend. split.
           ++ intros A add a. rewrite lines_loop_cons by assumption. rewrite E. cbn [Z.eqb feed].
              destruct (add (strip (cur ++ words l)) a); cbn [bind]; [apply H1|reflexivity..].
           ++ cbn [List.concat]. rewrite <- app_assoc, H2. unfold strip. rewrite <- filter_app, <- app_assoc, Ew. reflexivity.
        -- destruct (IH (cur ++ words l) (d + bal l)%Z) as (out & pend & H1 & H2). exists out, pend. split.
           ++ intros A add a. rewrite lines_loop_cons by assumption. apply Z.eqb_neq in N. rewrite N. apply H1.
           ++ rewrite H2, <- app_assoc, Ew. reflexivity.
Qed.

(** * Imports *)

Definition delivered (lines : list str) : list (list str) :=
  match lines_loop (fun l log => Ok (log ++ [l])) lines [] 0 [] with Ok log => log | _ => [] end.

Lemma feed_log out : forall log : list (list str), feed (fun l log => Ok (log ++ [l])) out log = Ok (log ++ out).
Proof.
  induction out as [|l out IH]; intro log; simpl; [now rewrite app_nil_r|]. rewrite IH, <- app_assoc. reflexivity.
Qed.

Lemma lines_loop_delivered {A} (add : list str -> A -> res A) lines a :
  lines_loop add lines [] 0 a = feed add (delivered lines) a.
Proof.
  destruct (lines_loop_conserves lines [] 0%Z) as (out & pend & H & _). rewrite H. unfold delivered.
  rewrite H, feed_log. reflexivity.
Qed.

Lemma feed_not_fuel {A} (add : list str -> A -> res A) out : 
  (forall l a, In l out -> add l a <> OutOfFuel) -> forall a, feed add out a <> OutOfFuel.
Proof.
  induction out as [|l out IH]; intros H a; [discriminate|]. cbn [feed].
  specialize (H l a (or_introl eq_refl)) as Hl. destruct (add l a); cbn [bind]; try congruence.
  apply IH. intros m b Hm. apply H. now right.
Qed.

Lemma import_terminates fs expand (rank : str -> nat) :
  (forall name content f, fs name = Some content -> In [S_ "Import"; f] (delivered (file_lines content)) ->
     rank (expand f) < rank name) ->
  forall fuel name p, rank name < fuel -> import fs expand fuel name p <> OutOfFuel.
Proof.
  intro Hr. induction fuel as [|fuel IH]; intros name p Hf; [lia|]. cbn [import].
  destruct (fs name) as [content|] eqn:E; [|discriminate]. rewrite lines_loop_delivered.
  apply feed_not_fuel. intros l q Hl. unfold addArg. destruct l as [|key rest]; [discriminate|].
  destruct (str_eqb_spec key (S_ "Import")) as [->|]; [|destruct (is_particle_keyword key); discriminate].
  destruct rest as [|f [|g rest]]; [discriminate| |discriminate].
  apply IH. specialize (Hr _ _ _ E Hl). lia.
Qed.

Definition self_fs (n : str) : option str := if str_eqb n (S_ "a") then Some (S_ "Import a") else None.
Lemma import_self_diverges fuel : forall p, import self_fs (fun n => n) fuel (S_ "a") p = OutOfFuel.
Proof.
  induction fuel as [|fuel IH]; intro p; [reflexivity|]. cbn [import].
  assert (E : self_fs (S_ "a") = Some (S_ "Import a")) by reflexivity. rewrite E.
  rewrite lines_loop_delivered.
  replace (delivered (file_lines (S_ "Import a"))) with [[S_ "Import"; S_ "a"]] by reflexivity.
  cbn [feed]. change (addArg (fun n q => import self_fs (fun n0 => n0) fuel n q) [S_ "Import"; S_ "a"] p)
    with (import self_fs (fun n0 => n0) fuel (S_ "a") p). rewrite IH. reflexivity.
Qed.

(** The form of [lines_loop_logical] that refers to the reading of each line only through [reads]. *)
Lemma total_ext w b ls : (forall l, In l ls -> reads l (w l) (b l)) -> total b ls = total bal ls.
Proof.
  unfold total. induction ls as [|l ls IH]; intro H; [reflexivity|]. cbn [map fold_right].
  rewrite IH by (intros; apply H; now right). f_equal. unfold bal.
  rewrite (makeParsedStrings_reads l (w l) (b l)) by (apply H; now left). reflexivity.
Qed.

Lemma words_ext (w : str -> list str) b ls : (forall l, In l ls -> reads l (w l) (b l)) -> map w ls = map words ls.
Proof.
  intro H. apply map_ext_in. intros l Hl. unfold words. now rewrite (makeParsedStrings_reads l (w l) (b l) (H l Hl)).
Qed.

Lemma logical_ext w b ls out : (forall l, In l ls -> reads l (w l) (b l)) -> logical w b ls out -> logical words bal ls out.
Proof.
  intros H L. induction L as [|chunk rest line out Hne Ht Hp Hs _ IH]; [constructor|].
  assert (Hc : forall l, In l chunk -> reads l (w l) (b l)) by (intros; apply H, in_or_app; now left).
  constructor.
  - assumption.
  - now rewrite <- (total_ext w b chunk Hc).
  - intros pre suf E H1 H2. rewrite <- (total_ext w b pre). { now apply (Hp pre suf). }
    intros l Hl. apply Hc. rewrite E. apply in_or_app. now left.
  - now rewrite <- (words_ext w b chunk Hc).
  - apply IH. intros; apply H, in_or_app; now right.
Qed.

Lemma lines_loop_blocks (w : str -> list str) (b : str -> Z) lines out :
  (forall l, In l lines -> ignoreThisLine l = false /\ reads l (w l) (b l) /\ w l <> []) ->
  logical w b lines out ->
  forall A (add : list str -> A -> res A) a, lines_loop add lines [] 0 a = feed add out a.
Proof.
  intros H L A add a. apply lines_loop_logical.
  - apply Forall_forall. intros l Hl. destruct (H l Hl) as (Hi & Hr & Hw). split; [assumption|].
    unfold words. now rewrite (makeParsedStrings_reads _ _ _ Hr).
  - apply (logical_ext w b); [|assumption]. intros l Hl. now apply H.
Qed.

Lemma open_depth {A} (add : list str -> A -> res A) ls : Forall (fun l => bal l = 0%Z) ls -> forall cur d a,
  d <> 0%Z -> lines_loop add ls cur d a = Ok a.
Proof.
  induction 1 as [|l ls H _ IH]; intros cur d a Hd; [reflexivity|]. cbn [lines_loop].
  destruct (ignoreThisLine l); [now apply IH|]. rewrite makeParsedStrings_depth, H, Z.add_0_r.
  destruct (words l); [now apply IH|]. destruct (Z.eqb_spec d 0); [contradiction|]. now apply IH.
Qed.
Lemma stray_brace rest : Forall (fun l => bal l = 0%Z) rest ->
  forall A (add : list str -> A -> res A) a, lines_loop add (S_ "}" :: rest) [] 0 a = Ok a.
Proof. intros H A add a. cbn [lines_loop]. cbn. now apply open_depth. Qed.
