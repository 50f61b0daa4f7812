From Verif.Descriptor Require Import Model Spec.
From Verif.Utilities Require Import Model.

(** ** getItems *)
Section items.
Context (o c sep : ascii) (Hoc : o <> c) (Hos : o <> sep) (Hcs : c <> sep).
Notation br := (braces o c).
Notation ps := (positions sep).
Definition plain (x : str) := forall a, In a x -> a <> o /\ a <> c /\ a <> sep.

Lemma br_app k s t : br k (s ++ t) = br k s ++ br (k + List.length s) t.
Proof. revert k; induction s as [|a s IH]; intro k; cbn; [now rewrite Nat.add_0_r|]. rewrite IH, app_assoc. do 2 f_equal. lia. Qed.
Lemma ps_app k s t : ps k (s ++ t) = ps k s ++ ps (k + List.length s) t.
Proof. revert k; induction s as [|a s IH]; intro k; cbn; [now rewrite Nat.add_0_r|]. rewrite IH, app_assoc. do 2 f_equal. lia. Qed.
Lemma eqb_neq (a b : ascii) : a <> b -> Ascii.eqb a b = false.
Proof. apply Ascii.eqb_neq. Qed.
Lemma plain_br k x : plain x -> br k x = [].
Proof. revert k; induction x as [|a x IH]; intros k H; cbn; [reflexivity|]. destruct (H a (or_introl eq_refl)) as (H1 & H2 & _). rewrite (eqb_neq a o H1), (eqb_neq a c H2). apply IH. intros b Hb. apply H. now right. Qed.
Lemma plain_ps k x : plain x -> ps k x = [].
Proof. revert k; induction x as [|a x IH]; intros k H; cbn; [reflexivity|]. destruct (H a (or_introl eq_refl)) as (_ & _ & H2). rewrite (eqb_neq a sep H2). apply IH. intros b Hb. apply H. now right. Qed.
Lemma br_o k t : br k (o :: t) = (k, true) :: br (S k) t.
Proof. cbn. now rewrite Ascii.eqb_refl. Qed.
Lemma br_c k t : br k (c :: t) = (k, false) :: br (S k) t.
Proof. cbn. rewrite (eqb_neq c o) by congruence. now rewrite Ascii.eqb_refl. Qed.
Lemma br_s k t : br k (sep :: t) = br (S k) t.
Proof. cbn. rewrite (eqb_neq sep o), (eqb_neq sep c) by congruence. reflexivity. Qed.
Lemma br_range k s p b : In (p, b) (br k s) -> k <= p < k + List.length s.
Proof.
  revert k; induction s as [|a s IH]; intros k H; cbn in H; [easy|]. apply in_app_or in H as [H | H].
  - destruct (Ascii.eqb a o); [|destruct (Ascii.eqb a c)]; cbn in H; try easy; destruct H as [H | []]; injection H as <- <-; cbn; lia.
  - apply IH in H. cbn. lia.
Qed.
Lemma ps_range k s p : In p (ps k s) -> k <= p < k + List.length s.
Proof.
  revert k; induction s as [|a s IH]; intros k H; cbn in H; [easy|]. apply in_app_or in H as [H | H].
  - destruct (Ascii.eqb a sep); cbn in H; [|easy]. destruct H as [<- | []]. cbn; lia.
  - apply IH in H. cbn. lia.
Qed.

Inductive bal : list (nat * bool) -> Prop :=
| bal_nil : bal []
| bal_cons p q l1 l2 : bal l1 -> bal l2 -> bal ((p, true) :: l1 ++ (q, false) :: l2).
Lemma bal_app l1 l2 : bal l1 -> bal l2 -> bal (l1 ++ l2).
Proof. intros H1 H2. induction H1; [assumption|]. cbn. rewrite <- app_assoc. cbn. now constructor. Qed.
Lemma bal_even l : bal l -> Nat.odd (List.length l) = false.
Proof.
  intro H. rewrite <- Nat.negb_even. apply negb_false_iff, Nat.even_spec. induction H; [now exists 0|].
  destruct IHbal1 as [x X], IHbal2 as [y Y]. exists (1 + x + y). cbn. rewrite app_length. cbn. lia.
Qed.
Lemma closing_bal l r d : bal l -> (0 < d)%Z -> closing d (l ++ r) = closing d r.
Proof.
  intro H. revert d r. induction H; intros d r D; [reflexivity|]. cbn [app closing]. destruct (Z.eqb_spec (d + 1) 0); [lia|].
  rewrite <- app_assoc, IHbal1 by lia. cbn [app closing]. destruct (Z.eqb_spec (d + 1 + -1) 0); [lia|]. replace (d + 1 + -1)%Z with d by lia. now apply IHbal2.
Qed.
Lemma matched_bal l r : bal l -> matched (l ++ r) = matched l ++ matched r.
Proof.
  intro H. revert r. induction H; intro r; [reflexivity|].
  assert (E : forall x, matched ((p, true) :: l1 ++ (q, false) :: x) = (p, q) :: matched l1 ++ matched x).
  { intro x. cbn [matched]. rewrite closing_bal by (auto; lia). cbn. now rewrite IHbal1. }
  rewrite E. cbn [app]. rewrite <- app_assoc. cbn [app]. rewrite E, IHbal2. cbn. now rewrite <- app_assoc.
Qed.
Lemma closing_in d l q : closing d l = Some q -> exists b, In (q, b) l.
Proof.
  revert d; induction l as [|[p b] r IH]; intros d H; cbn in H; [discriminate|]. destruct (Z.eqb _ 0).
  - injection H as <-. exists b. now left.
  - destruct (IH _ H) as [b' Hb]. exists b'. now right.
Qed.
Lemma matched_in l p q : In (p, q) (matched l) -> exists b b', In (p, b) l /\ In (q, b') l.
Proof.
  induction l as [|[x [|]] r IH]; cbn; [easy| |].
  - intro H. apply in_app_or in H as [H | H].
    + destruct (closing 1 r) as [y|] eqn:E; [|easy]. destruct H as [H | []]. injection H as <- <-. apply closing_in in E as [b B]. exists true, b. split; [now left|now right].
    + destruct (IH H) as (b & b' & H1 & H2). exists b, b'. auto.
  - intro H. destruct (IH H) as (b & b' & H1 & H2). exists b, b'. auto.
Qed.

Definition good (x : str) := forall k, bal (br k x) /\ forall p, In p (ps k x) -> inside (matched (br k x)) p = true.
Lemma plain_good x : plain x -> good x.
Proof. intros H k. rewrite plain_br, plain_ps by assumption. split; [constructor|intros p []]. Qed.

Lemma inside_app m1 m2 p : inside (m1 ++ m2) p = inside m1 p || inside m2 p.
Proof. unfold inside. apply existsb_app. Qed.
Lemma inside_range k s p : ~ (k <= p < k + List.length s) -> inside (matched (br k s)) p = false.
Proof.
  intro H. unfold inside. apply Bool.not_true_iff_false. intro E. apply existsb_exists in E as ([a b] & I & E). apply matched_in in I as (b1 & b2 & I1 & I2).
  apply br_range in I1, I2. cbn in E. apply andb_true_iff in E as [E1 E2]. apply Nat.ltb_lt in E1, E2. lia.
Qed.

Lemma joined_good xs : Forall good xs -> forall k, bal (br k (joined sep xs)).
Proof.
  induction 1 as [|x r Hx Hr IH]; intro k; [constructor|]. destruct r as [|y r']; [apply Hx|].
  change (joined sep (x :: y :: r')) with (x ++ sep :: joined sep (y :: r')). rewrite br_app, br_s. apply bal_app; [apply Hx|apply IH].
Qed.

Lemma substr_here pre x post : substr_to (pre ++ x ++ post) (List.length pre) (List.length pre + List.length x) = Ok x.
Proof.
  unfold substr_to. rewrite !app_length. destruct (Nat.ltb_spec (List.length pre + (List.length x + List.length post)) (List.length pre)); [lia|].
  destruct (Nat.ltb_spec (List.length pre + List.length x) (List.length pre)); [lia|]. rewrite skipn_app, skipn_all, Nat.sub_diag. cbn [skipn app].
  replace (List.length pre + List.length x - List.length pre) with (List.length x) by lia. now rewrite firstn_app, firstn_all, Nat.sub_diag, firstn_O, app_nil_r.
Qed.

Lemma cut_skip s m last l1 l2 b : (forall p, In p l1 -> inside m p = true) -> cut s m last (l1 ++ l2) b = cut s m last l2 b.
Proof. induction l1 as [|p r IH]; intro H; [reflexivity|]. cbn. rewrite H by (now left). apply IH. intros q Hq. apply H. now right. Qed.

Lemma cut_items xs : xs <> [] -> Forall good xs -> forall pre post m,
  (forall p, In p (ps (List.length pre) (joined sep xs)) -> inside m p = inside (matched (br (List.length pre) (joined sep xs))) p) ->
  cut (pre ++ joined sep xs ++ post) m (List.length pre + List.length (joined sep xs)) (ps (List.length pre) (joined sep xs)) (List.length pre) = Ok xs.
Proof.
  induction xs as [|x r IH]; intros N G pre post m M; [congruence|]. pose proof (Forall_inv G) as Gx. pose proof (Forall_inv_tail G) as Gr. destruct r as [|y r'].
  - cbn [joined] in *. rewrite <- (app_nil_r (ps _ x)), cut_skip.
    + cbn [cut]. rewrite substr_here. reflexivity.
    + intros p Hp. rewrite M by assumption. now apply Gx.
  - change (joined sep (x :: y :: r')) with (x ++ sep :: joined sep (y :: r')) in *. set (body := joined sep (y :: r')) in *.
    rewrite ps_app in *. cbn [positions] in *. rewrite Ascii.eqb_refl in *. cbn [app] in *. rewrite br_app, br_s in M.
    assert (Mm : matched (br (List.length pre) x ++ br (S (List.length pre + List.length x)) body) = matched (br (List.length pre) x) ++ matched (br (S (List.length pre + List.length x)) body)).
    { apply matched_bal. apply Gx. }
    rewrite Mm in M. rewrite cut_skip.
    + cbn [cut]. rewrite M by (rewrite in_app_iff; right; now left). rewrite inside_app, !inside_range by lia. cbn [orb].
      replace (pre ++ (x ++ sep :: body) ++ post) with (pre ++ x ++ (sep :: body) ++ post) at 1 by now rewrite <- !app_assoc.
      rewrite substr_here. cbn [bind].
      replace (pre ++ (x ++ sep :: body) ++ post) with ((pre ++ x ++ [sep]) ++ body ++ post) by (rewrite <- !app_assoc; reflexivity).
      replace (List.length pre + List.length x + 1) with (List.length (pre ++ x ++ [sep])) by (rewrite !app_length; cbn; lia).
      replace (S (List.length pre + List.length x)) with (List.length (pre ++ x ++ [sep])) by (rewrite !app_length; cbn; lia).
      replace (List.length pre + List.length (x ++ sep :: body)) with (List.length (pre ++ x ++ [sep]) + List.length body) by (rewrite !app_length; cbn; lia).
      unfold body in *. rewrite IH; [reflexivity|discriminate|assumption|].
      intros p Hp. replace (List.length (pre ++ x ++ [sep])) with (S (List.length pre + List.length x)) in * by (rewrite !app_length; cbn; lia).
      rewrite M by (rewrite in_app_iff; right; right; assumption). rewrite inside_app. rewrite (inside_range (List.length pre) x); [reflexivity|].
      apply ps_range in Hp. lia.
    + intros p Hp. rewrite M by (rewrite in_app_iff; now left). rewrite inside_app. apply orb_true_iff. left. now apply Gx.
Qed.

Definition node (h : str) (xs : list str) : str := h ++ o :: joined sep xs ++ [c].
Lemma node_br h xs k : plain h -> br k (node h xs) = (k + List.length h, true) :: br (S (k + List.length h)) (joined sep xs) ++ [(S (k + List.length h + List.length (joined sep xs)), false)].
Proof. intro H. unfold node. rewrite br_app, (plain_br k h H), br_o, br_app, br_c. cbn. reflexivity. Qed.
Lemma node_ps h xs k : plain h -> ps k (node h xs) = ps (S (k + List.length h)) (joined sep xs).
Proof.
  intro H. unfold node. rewrite ps_app, (plain_ps k h H). cbn [positions app]. rewrite (eqb_neq o sep) by assumption. cbn [app]. rewrite ps_app. cbn [positions].
  rewrite (eqb_neq c sep) by assumption. now rewrite !app_nil_r.
Qed.
Lemma node_matched h xs k : plain h -> Forall good xs ->
  matched (br k (node h xs)) = (k + List.length h, S (k + List.length h + List.length (joined sep xs))) :: matched (br (S (k + List.length h)) (joined sep xs)).
Proof.
  intros H G. rewrite node_br by assumption. pose proof (joined_good xs G (S (k + List.length h))) as B.
  cbn [matched]. rewrite closing_bal by (auto; lia). cbn. rewrite matched_bal by assumption. cbn. now rewrite app_nil_r.
Qed.
Lemma node_good h xs : plain h -> Forall good xs -> good (node h xs).
Proof.
  intros H G k. split.
  - rewrite node_br by assumption. constructor; [now apply joined_good|constructor].
  - intros p Hp. rewrite node_ps in Hp by assumption. rewrite node_matched by assumption. apply ps_range in Hp. unfold inside. cbn [existsb fst snd].
    apply orb_true_iff. left. apply andb_true_iff. split; apply Nat.ltb_lt; lia.
Qed.

Lemma items_node h xs : plain h -> xs <> [] -> Forall good xs -> getItems o c sep (node h xs) = Ok (h :: xs).
Proof.
  intros H N G. unfold getItems. assert (B : bal (br 0 (node h xs))) by (now apply node_good). rewrite (bal_even _ B).
  pose proof (node_matched h xs 0 H G) as M. rewrite node_br in M |- * by assumption. cbn [Nat.add] in *. rewrite M.
  rewrite node_ps by assumption. cbn [Nat.add].
  assert (C : cut (node h xs) (matched (br (S (List.length h)) (joined sep xs))) (S (List.length h + List.length (joined sep xs))) (ps (S (List.length h)) (joined sep xs)) (List.length h + 1) = Ok xs).
  { pose proof (cut_items xs N G (h ++ [o]) [c] (matched (br (S (List.length h)) (joined sep xs)))) as C.
    replace (List.length (h ++ [o])) with (S (List.length h)) in C by (rewrite app_length; cbn; lia). rewrite <- app_assoc in C. cbn [app] in C.
    replace (List.length h + 1) with (S (List.length h)) by lia. apply C. reflexivity. }
  rewrite C. cbn [bind]. do 2 f_equal. unfold node. now rewrite firstn_app, firstn_all, Nat.sub_diag, firstn_O, app_nil_r.
Qed.
Lemma items_plain s : plain s -> getItems o c sep s = Ok [s].
Proof. intro H. unfold getItems. now rewrite (plain_br 0 s H). Qed.
(** An odd number of brackets is refused. *)
Lemma items_odd s : Nat.odd (List.length (br 0 s)) = true -> getItems o c sep s = Ok [].
Proof. intro H. unfold getItems. now rewrite H. Qed.
End items.

(** ** Heads *)
Lemma brace_neq : "{"%char <> "}"%char /\ "{"%char <> ","%char /\ "}"%char <> ","%char.
Proof. repeat split; discriminate. Qed.
Lemma bracket_neq : "["%char <> "]"%char /\ "["%char <> ";"%char /\ "]"%char <> ";"%char.
Proof. repeat split; discriminate. Qed.

Lemma free_plain_brace s : free_of punctuation s -> plain "{" "}" "," s.
Proof. intros H a Ha. specialize (H a Ha). cbn in H. repeat split; intro; subst; apply H; auto. Qed.
Lemma free_plain_bracket s : free_of punctuation s -> plain "[" "]" ";" s.
Proof. intros H a Ha. specialize (H a Ha). cbn in H. repeat split; intro; subst; apply H; auto 10. Qed.
Lemma plain_app o c s x y : plain o c s x -> plain o c s y -> plain o c s (x ++ y).
Proof. intros H1 H2 a Ha. apply in_app_or in Ha as [Ha | Ha]; auto. Qed.
Lemma plain_joined l : Forall (free_of punctuation) l -> plain "{" "}" "," (joined ";" l).
Proof.
  induction 1 as [|x r Hx Hr IH]; [intros a []|]. destruct r as [|y r']; [now apply free_plain_brace|].
  change (joined ";" (x :: y :: r')) with (x ++ [";"%char] ++ joined ";" (y :: r')). apply plain_app; [now apply free_plain_brace|]. apply plain_app; [|exact IH].
  intros a [<- | []]. repeat split; discriminate.
Qed.
Lemma head_plain n mods : free_of punctuation n -> Forall (free_of punctuation) mods -> plain "{" "}" "," (head_text n mods).
Proof.
  intros Hn Hm. unfold head_text. destruct mods as [|m r]; [now apply free_plain_brace|]. apply plain_app; [now apply free_plain_brace|].
  change ("["%char :: joined ";" (m :: r) ++ ["]"%char]) with (["["%char] ++ joined ";" (m :: r) ++ ["]"%char]).
  apply plain_app; [intros a [<- | []]; repeat split; discriminate|]. apply plain_app; [now apply plain_joined|intros a [<- | []]; repeat split; discriminate].
Qed.
Lemma head_items n mods : free_of punctuation n -> Forall (free_of punctuation) mods -> getItems "[" "]" ";" (head_text n mods) = Ok (n :: mods).
Proof.
  intros Hn Hm. unfold head_text. destruct mods as [|m r]; [apply items_plain; now apply free_plain_bracket|].
  apply (items_node "[" "]" ";"); try discriminate; [now apply free_plain_bracket|].
  eapply Forall_impl; [|exact Hm]. intros x Hx. apply plain_good. now apply free_plain_bracket.
Qed.

Fixpoint tree_ind' (Q : tree -> Prop) (H : forall n m ds, Forall Q ds -> Q (Tree n m ds)) (t : tree) : Q t :=
  let '(Tree n m ds) := t in
  H n m ds ((fix go (l : list tree) : Forall Q l := match l with [] => Forall_nil Q | d :: r => Forall_cons d (tree_ind' Q H d) (go r) end) ds).

Lemma mods_free shapes mods : Forall (mod_ok shapes) mods -> Forall (free_of punctuation) mods.
Proof. intro H. eapply Forall_impl; [|exact H]. intros m (_ & F & _). exact F. Qed.

Lemma text_good w t : tree_ok w t -> good "{" "}" "," (text t).
Proof.
  induction t as [n mods ds IH] using tree_ind'. intro H. inversion H as [? ? ? Hn Hk Hm Hv Hl Hd]; subst. cbn [text].
  pose proof (head_plain n mods Hn (mods_free _ _ Hm)) as P. destruct ds as [|d r]; [now apply plain_good|].
  apply (node_good "{" "}" ","); try discriminate; [exact P|].
  clear - IH Hd. induction IH as [|x l Hx _ IHl]; cbn; constructor; [apply Hx; exact (Forall_inv Hd)|]. apply IHl. exact (Forall_inv_tail Hd).
Qed.
Lemma text_items w t : tree_ok w t -> getItems "{" "}" "," (text t) = let '(Tree n mods ds) := t in Ok (head_text n mods :: map text ds).
Proof.
  destruct t as [n mods ds]. intro H. inversion H as [? ? ? Hn Hk Hm Hv Hl Hd]; subst. cbn [text].
  pose proof (head_plain n mods Hn (mods_free _ _ Hm)) as P. destruct ds as [|d r]; [now apply items_plain|].
  apply (items_node "{" "}" ","); try discriminate; [exact P|].
  clear - Hd. induction Hd as [|x l Hx _ IHl]; cbn; constructor; [now apply (text_good w)|assumption].
Qed.

(** ** Building a particle *)
Definition state_of (w : world) (t : tree) : nstate :=
  let '(Tree n mods ds) := t in pdgLookup (extra w) (narrow w n) (photon w n) (leastL w (tree_names t)) (read_modifiers (shapes w) mods).
Fixpoint made (w : world) (t : tree) : particle := let '(Tree n mods ds) := t in Part n (state_of w t) (map (made w) ds).
Lemma made_names w t : skeleton (made w t) = tree_names t.
Proof.
  induction t as [n mods ds IH] using tree_ind'. cbn [made skeleton tree_names]. f_equal. rewrite map_map. apply map_ext_in.
  rewrite Forall_forall in IH. exact IH.
Qed.
Lemma build_text w t : tree_ok w t -> forall fuel, height t <= fuel -> build w fuel (text t) = Ok (Some (made w t)).
Proof.
  induction t as [n mods ds IH] using tree_ind'. intros H fuel F. pose proof (text_items w _ H) as I. inversion H as [? ? ? Hn Hk Hm Hv Hl Hd]; subst.
  destruct fuel as [|fuel]; [cbn in F; lia|]. cbn [build]. rewrite I. cbn [bind]. rewrite (head_items n mods Hn (mods_free _ _ Hm)). cbn [bind].
  assert (A : all_good (map (build w fuel) (map text ds)) = Ok (map (made w) ds)).
  { clear - IH Hd F. cbn [height] in F. induction ds as [|d r IHr]; [reflexivity|]. cbn [map fold_right] in *. cbn [all_good].
    rewrite (Forall_inv IH (Forall_inv Hd)) by lia. cbn [bind]. rewrite IHr; [reflexivity|exact (Forall_inv_tail IH)|lia|exact (Forall_inv_tail Hd)]. }
  rewrite A. cbn [bind]. rewrite Hk. cbn [made state_of tree_names]. do 6 f_equal. rewrite map_map. apply map_ext. intro. apply made_names.
Qed.

(** ** Modifiers *)
Lemma find0_char c s : find0 [c] s = None <-> ~ In c s.
Proof.
  induction s as [|a s IH]; cbn; [tauto|]. rewrite Ascii.eqb_sym. destruct (Ascii.eqb_spec a c); cbn.
  - subst. split; [discriminate|]. intro H. exfalso. apply H. now left.
  - assert (E : option_map S (find0 [c] s) = None <-> find0 [c] s = None) by (destruct (find0 [c] s); cbn; split; congruence).
    rewrite E, IH. tauto.
Qed.
Lemma find0_after c x y : ~ In c x -> find0 [c] (x ++ c :: y) = Some (List.length x).
Proof.
  induction x as [|a x IH]; intro H; cbn; [now rewrite Ascii.eqb_refl|]. destruct (Ascii.eqb_spec c a); [subst; exfalso; apply H; now left|].
  cbn. rewrite IH; [reflexivity|]. intro I. apply H. now right.
Qed.
Lemma getlines_none d acc s : ~ In d s -> getlines d acc s = match acc ++ s with [] => [] | _ => [acc ++ s] end.
Proof.
  revert acc; induction s as [|a s IH]; intros acc H; cbn [getlines]; [rewrite app_nil_r; reflexivity|].
  destruct (Ascii.eqb_spec a d); [subst; exfalso; apply H; now left|]. rewrite IH by (intro I; apply H; now right). now rewrite <- app_assoc.
Qed.
Lemma split_none m : ~ has "=" m -> forall k v, split m "=" true <> [k; v].
Proof.
  intros H k v. unfold split. rewrite getlines_none by exact H. cbn [app]. destruct m; [discriminate|]. cbn [filter]. destruct (_ || _); discriminate.
Qed.
Definition has_eq (m : str) : bool := match find0 (S_ "=") m with Some _ => true | None => false end.
Lemma has_eq_spec m : has_eq m = true <-> has "=" m.
Proof.
  unfold has_eq, has. change (S_ "=") with ["="%char]. pose proof (find0_char "=" m) as F. destruct (find0 ["="%char] m); split; intro H; try reflexivity; try discriminate.
  - destruct (in_dec ascii_dec "="%char m) as [I | I]; [exact I|]. apply F in I. discriminate.
  - exfalso. now apply F.
Qed.
Lemma has_eq_false m : has_eq m = false <-> ~ has "=" m.
Proof. rewrite <- has_eq_spec. destruct (has_eq m); split; congruence. Qed.

Lemma isLineshape_spec shapes s : isLineshape shapes s = true <-> In (upto (find0 (S_ ".") s) s) shapes.
Proof.
  unfold isLineshape. rewrite existsb_exists. split.
  - intros (x & I & E). apply str_eqb_eq in E. now rewrite E.
  - intro I. eexists. split; [exact I|]. apply str_eqb_refl.
Qed.
Lemma upto_len o s : List.length (upto o s) <= List.length s.
Proof. destruct o; cbn; [rewrite firstn_length; lia|lia]. Qed.

Section mods.
Context (sh : list str) (SH : shapes_ok sh).

Lemma shape_char c : isLineshape sh [c] = false.
Proof.
  apply Bool.not_true_iff_false. intro H. apply isLineshape_spec, SH in H as [H _]. pose proof (upto_len (find0 (S_ ".") [c]) [c]). cbn [List.length] in *. lia.
Qed.
Lemma shape_orb o c : In o orbitals -> isLineshape sh [o; c] = false.
Proof.
  intro O. apply Bool.not_true_iff_false. intro H. apply isLineshape_spec in H. pose proof (SH _ H) as (L & _ & _ & Q & _).
  assert (E : upto (find0 (S_ ".") [o; c]) [o; c] = [o; c] \/ List.length (upto (find0 (S_ ".") [o; c]) [o; c]) < 2).
  { destruct (find0 (S_ ".") [o; c]) as [i|] eqn:F; [|now left]. right. cbn [upto]. change (S_ ".") with ["."%char] in F. cbn [find0 prefixb] in F.
    destruct (Ascii.eqb "." o && true); [injection F as <-; cbn; lia|]. destruct (Ascii.eqb "." c && true); cbn in F; [injection F as <-; cbn; lia|discriminate]. }
  destruct E as [E | E]; [|lia]. exact (Q o c O E).
Qed.
Lemma shape_const m : In m [S_ "BgSpin0"; S_ "Inco"; S_ "NoSym"] -> isLineshape sh m = false.
Proof.
  intro M. apply Bool.not_true_iff_false. intro H. apply isLineshape_spec in H.
  destruct M as [<- | [<- | [<- | []]]]; (match type of H with In ?x _ => let y := eval vm_compute in x in change x with y in H end); apply SH in H as (_ & _ & _ & _ & H1 & H2 & H3); [apply H1|apply H2|apply H3]; reflexivity.
Qed.

Definition vset (m : str) (v : str) : str := match split m "=" true with [k; x] => if str_eqb k (S_ "vertex") then x else v | _ => v end.
Definition with_vertex (v : str) (st : nstate) := NState (orbital st) (minL st) (conf st) (lineshape st) (usesDefault st) v (modifiers st).

(** What each kind of modifier does. *)
Lemma pm_none m st : ~ has "=" m -> parseModifier sh m st =
  if isLineshape sh m then set_lineshape m st else match m with [c] => parse_char c st | [c; d] => parse_char d (parse_char c st) | _ => st end.
Proof.
  intro H. unfold parseModifier. pose proof (split_none m H) as N. assert (O : forall c st, parse_one sh c st = parse_char c st) by (intros; unfold parse_one; now rewrite shape_char).
  destruct (split m "=" true) as [|k [|v [|]]]; try (exfalso; now apply (N k v)); destruct (isLineshape sh m); try reflexivity; destruct m as [|a [|b [|]]]; try reflexivity; now rewrite !O.
Qed.
Lemma pm_eq m st : 3 <= List.length m -> isLineshape sh m = false -> parseModifier sh m st = with_vertex (vset m (vertexName st)) st.
Proof.
  intros L S. unfold parseModifier, vset. rewrite S. assert (E : match m with [c] => parse_char c st | [c; d] => parse_one sh d (parse_one sh c st) | _ => st end = st) by (destruct m as [|a [|b [|]]]; cbn in L; try lia; reflexivity).
  destruct (split m "=" true) as [|k [|v [|]]]; try destruct (str_eqb k (S_ "vertex")); rewrite ?E; destruct st; reflexivity.
Qed.
Lemma vset_none m v : ~ has "=" m -> vset m v = v.
Proof. intro H. unfold vset. pose proof (split_none m H) as N. destruct (split m "=" true) as [|k [|x [|]]]; try reflexivity. exfalso. now apply (N k x). Qed.

(** Characters a configuration can come from. *)
Definition conf_char (c : ascii) : Prop := find_char c orbitals = None /\ c <> "="%char /\ ~ In c punctuation /\ nat_of_ascii c < 128 /\ c <> "000"%char.
Definition conf_of (c : ascii) : Z := let n := Z.of_nat (nat_of_ascii c) in if Z.leb 48 n && Z.leb n 57 then (n - 48)%Z else (10 + n)%Z.
Definition conf_ok (v : Z) : Prop := v = 0%Z \/ exists c, conf_char c /\ v = conf_of c.
Lemma parse_conf c st : conf_char c -> parse_char c st = NState (orbital st) (minL st) (conf_of c) (lineshape st) (usesDefault st) (vertexName st) (modifiers st).
Proof.
  intros (F & _ & _ & L & Z). unfold parse_char, conf_of, char_value. rewrite F.
  assert (N0 : nat_of_ascii c <> 0) by (intro E; apply Z; rewrite <- (ascii_nat_embedding c), E; reflexivity).
  destruct (Z.eqb_spec (Z.of_nat (nat_of_ascii c)) 0); [lia|]. destruct (Z.leb 48 _ && Z.leb _ 57); [reflexivity|].
  destruct (Z.ltb_spec (Z.of_nat (nat_of_ascii c)) 128); [|lia]. rewrite Z.mod_small by lia. reflexivity.
Qed.
Lemma parse_orb c i st : find_char c orbitals = Some i -> parse_char c st = NState (Z.of_nat i) (minL st) (conf st) (lineshape st) (usesDefault st) (vertexName st) (modifiers st).
Proof. intro F. unfold parse_char. now rewrite F. Qed.
Lemma find_char_nth c s i : find_char c s = Some i -> nth_error s i = Some c /\ i < List.length s.
Proof.
  revert i; induction s as [|a s IH]; intros i; cbn; [discriminate|]. destruct (Ascii.eqb_spec a c); [injection 1 as <-; subst; split; [reflexivity|lia]|].
  destruct (find_char c s); cbn; [|discriminate]. injection 1 as <-. destruct (IH n0 eq_refl). split; [assumption|lia].
Qed.
Lemma orb_back i : i < 7 -> exists o, nth_error orbitals i = Some o /\ find_char o orbitals = Some i /\ In o orbitals.
Proof. intro H. do 7 (destruct i as [|i]; [eexists; split; [reflexivity|]; split; [reflexivity|cbn; tauto]|]). lia. Qed.
Lemma conf_back c : conf_char c -> conf_of c <> 0%Z ->
  (if Z.ltb (conf_of c) 10 then [ascii_of_nat (48 + Z.to_nat (conf_of c))] else [ascii_of_nat (Z.to_nat (Z.modulo (conf_of c - 10) 256))]) = [c].
Proof.
  intros (_ & _ & _ & L & Z0) N. assert (nat_of_ascii c <> 0) by (intro E; apply Z0; rewrite <- (ascii_nat_embedding c), E; reflexivity). unfold conf_of in *.
  assert (B : forall k, k = nat_of_ascii c -> [ascii_of_nat k] = [c]) by (intros k ->; now rewrite ascii_nat_embedding).
  destruct (Z.leb_spec 48 (Z.of_nat (nat_of_ascii c))), (Z.leb_spec (Z.of_nat (nat_of_ascii c)) 57); cbn [andb] in *.
  - destruct (Z.ltb_spec (Z.of_nat (nat_of_ascii c) - 48) 10); [|lia]. apply B. lia.
  - destruct (Z.ltb_spec (10 + Z.of_nat (nat_of_ascii c)) 10); [lia|]. apply B. rewrite Z.mod_small by lia. lia.
  - destruct (Z.ltb_spec (10 + Z.of_nat (nat_of_ascii c)) 10); [lia|]. apply B. rewrite Z.mod_small by lia. lia.
  - lia.
Qed.
Lemma conf_nonneg v : conf_ok v -> (0 <= v)%Z.
Proof. intros [-> | (c & _ & ->)]; [lia|]. unfold conf_of. destruct (Z.leb_spec 48 (Z.of_nat (nat_of_ascii c))); cbn [andb]; [destruct (Z.leb _ 57)|]; lia. Qed.

(** Invariant of reading. *)
Definition read_ok (mods : list str) (st : nstate) : Prop :=
  (0 <= orbital st <= 6)%Z /\ conf_ok (conf st) /\ (lineshape st = S_ "BW" \/ In (lineshape st) mods /\ isLineshape sh (lineshape st) = true) /\ usesDefault st = false.
Lemma char_ok mods c st : read_ok mods st -> ~ In c punctuation -> nat_of_ascii c < 128 -> c <> "000"%char -> c <> "="%char -> read_ok mods (parse_char c st).
Proof.
  intros (A & B & C & D) P L Z E. destruct (find_char c orbitals) as [i|] eqn:F.
  - rewrite (parse_orb c i st F). apply find_char_nth in F as [_ F]. split; [cbn in *; lia|]. split; [exact B|]. split; [exact C|exact D].
  - rewrite parse_conf by (repeat split; auto). split; [exact A|]. split; [right; exists c; repeat split; auto|]. split; [exact C|exact D].
Qed.
Lemma step_ok mods m st : In m mods -> mod_ok sh m -> read_ok mods st -> read_ok mods (parseModifier sh m st).
Proof.
  intros I (N & P & L & Z & Eq) H. destruct (in_dec ascii_dec "="%char m) as [E | E].
  - destruct (Eq E) as [L3 S]. rewrite pm_eq by assumption. exact H.
  - rewrite pm_none by exact E. destruct (isLineshape sh m) eqn:S.
    + destruct H as (A & B & C & D). split; [exact A|]. split; [exact B|]. split; [right; auto|exact D].
    + destruct m as [|a [|b [|]]]; auto.
      * apply char_ok; auto; [apply P; now left|apply L; now left| |]; intro; subst; [apply Z|apply E]; now left.
      * apply char_ok; [apply char_ok|apply P|apply L| |]; auto; cbn; auto; [apply P; now left|apply L; now left| | | |]; intro; subst; [apply Z|apply E|apply Z|apply E]; cbn; auto.
Qed.
Lemma read_fold mods l st : incl l mods -> Forall (mod_ok sh) l -> read_ok mods st -> read_ok mods (fold_left (fun st m => parseModifier sh m st) l st).
Proof.
  revert st; induction l as [|m r IH]; intros st I F H; [exact H|]. cbn. apply IH; [intros x Hx; apply I; now right|exact (Forall_inv_tail F)|].
  apply step_ok; [apply I; now left|exact (Forall_inv F)|exact H].
Qed.
Lemma read_inv mods : Forall (mod_ok sh) mods -> read_ok mods (read_modifiers sh mods).
Proof. intro F. apply read_fold; [apply incl_refl|exact F|]. split; [cbn; lia|]. split; [now left|]. split; [now left|reflexivity]. Qed.

Lemma char_keeps c st : vertexName (parse_char c st) = vertexName st /\ modifiers (parse_char c st) = modifiers st /\ minL (parse_char c st) = minL st.
Proof. unfold parse_char. destruct (find_char c orbitals); auto. Qed.
Lemma pm_vertex m st : mod_ok sh m -> vertexName (parseModifier sh m st) = vset m (vertexName st) /\ modifiers (parseModifier sh m st) = modifiers st.
Proof.
  intros (N & P & L & Z & Eq). destruct (in_dec ascii_dec "="%char m) as [E | E].
  - destruct (Eq E) as [L3 S]. rewrite pm_eq by assumption. auto.
  - rewrite pm_none, vset_none by exact E. destruct (isLineshape sh m); [auto|]. destruct m as [|a [|b [|]]]; auto.
    + destruct (char_keeps a st) as (A & B & _). auto.
    + destruct (char_keeps b (parse_char a st)) as (A & B & _), (char_keeps a st) as (A' & B' & _). rewrite A, B. auto.
Qed.
Lemma read_vertex l st : Forall (mod_ok sh) l -> vertexName (fold_left (fun st m => parseModifier sh m st) l st) = fold_left (fun v m => vset m v) (filter has_eq l) (vertexName st)
  /\ modifiers (fold_left (fun st m => parseModifier sh m st) l st) = modifiers st.
Proof.
  revert st; induction l as [|m r IH]; intros st F; [auto|]. cbn [fold_left filter]. destruct (pm_vertex m st (Forall_inv F)) as [V M].
  destruct (IH (parseModifier sh m st) (Forall_inv_tail F)) as [V' M']. rewrite V', M', V, M. split; [|reflexivity].
  destruct (has_eq m) eqn:E; [reflexivity|]. rewrite vset_none; [reflexivity|]. now apply has_eq_false.
Qed.
Lemma vset_change l v : fold_left (fun v m => vset m v) l v = v \/ exists m, In m l /\ is_vertex m.
Proof.
  revert v; induction l as [|m r IH]; intro v; [now left|]. cbn. destruct (IH (vset m v)) as [-> | (x & I & V)]; [|right; exists x; split; [now right|assumption]].
  unfold vset. destruct (split m "=" true) as [|k [|x [|]]] eqn:E; auto. destruct (str_eqb_spec k (S_ "vertex")); auto. subst k. right. exists m. split; [now left|]. exists x. exact E.
Qed.
Lemma pm_long m st : mod_ok sh m -> ~ is_short sh m -> orbital (parseModifier sh m st) = orbital st /\ conf (parseModifier sh m st) = conf st.
Proof.
  intros (N & P & L & Z & Eq) S. destruct (in_dec ascii_dec "="%char m) as [E | E].
  - destruct (Eq E) as [L3 S']. rewrite pm_eq by assumption. auto.
  - rewrite pm_none by exact E. destruct (isLineshape sh m) eqn:S'; [auto|]. destruct m as [|a [|b [|]]]; auto; exfalso; apply S; split; cbn; auto.
Qed.
Lemma read_long l st : Forall (mod_ok sh) l -> (forall m, In m l -> ~ is_short sh m) -> orbital (fold_left (fun st m => parseModifier sh m st) l st) = orbital st /\ conf (fold_left (fun st m => parseModifier sh m st) l st) = conf st.
Proof.
  revert st; induction l as [|m r IH]; intros st F S; [auto|]. cbn [fold_left]. destruct (pm_long m st (Forall_inv F) (S m (or_introl eq_refl))) as [A B].
  destruct (IH (parseModifier sh m st) (Forall_inv_tail F)) as [A' B']; [intros x Hx; apply S; now right|]. rewrite A', B', A, B. auto.
Qed.
End mods.

(** ** Printing the modifiers *)
Notation append := Verif.Descriptor.Model.append.
Lemma append_joined (l : list str) : Forall (fun x => x <> []) l -> forall acc : str, acc <> [] -> fold_left append l ("["%char :: acc) = "["%char :: acc ++ flat_map (fun x => ";"%char :: x) l.
Proof.
  induction l as [|x r IH]; intros F acc N; cbn [fold_left flat_map]; [now rewrite app_nil_r|].
  assert (E : append ("["%char :: acc) x = "["%char :: (acc ++ ";"%char :: x)).
  { unfold append. destruct (str_eqb_spec ("["%char :: acc) (S_ "[")) as [Q | Q]; [exfalso; apply N; change (S_ "[") with ["["%char] in Q; congruence|]. cbn. reflexivity. }
  rewrite E, IH; [|exact (Forall_inv_tail F)|destruct acc; discriminate]. now rewrite <- app_assoc.
Qed.
Lemma joined_flat sep (x : str) r : joined sep (x :: r) = x ++ flat_map (fun y => sep :: y) r.
Proof. revert x; induction r as [|y r IH]; intro x; [cbn; now rewrite app_nil_r|]. change (joined sep (x :: y :: r)) with (x ++ sep :: joined sep (y :: r)). rewrite IH. reflexivity. Qed.
Lemma modifierString_text st (l : list str) n : printed st = Ok l -> Forall (fun x => x <> []) l -> exists m, modifierString st = Ok m /\ n ++ m = head_text n l.
Proof.
  intros P F. unfold modifierString. rewrite P. cbn [bind]. eexists. split; [reflexivity|]. destruct l as [|x r]; [cbn; now rewrite app_nil_r|].
  assert (E : fold_left append (x :: r) (S_ "[") = "["%char :: joined ";" (x :: r)).
  { cbn [fold_left]. change (append (S_ "[") x) with ("["%char :: x). rewrite append_joined; [now rewrite joined_flat|exact (Forall_inv_tail F)|exact (Forall_inv F)]. }
  rewrite E. destruct (str_eqb_spec (("["%char :: joined ";" (x :: r)) ++ S_ "]") (S_ "[]")) as [Q | Q]; [|reflexivity].
  exfalso. pose proof (Forall_inv F) as Nx. rewrite joined_flat in Q. destruct x as [|a x]; [congruence|]. cbn in Q. injection Q as Q1 Q2. destruct x; cbn in Q2; [|discriminate]. destruct r; cbn in Q2; discriminate.
Qed.

Lemma orb_plain o : In o orbitals -> ~ In o punctuation /\ nat_of_ascii o < 128 /\ o <> "000"%char /\ o <> "="%char.
Proof. intro H. cbn in H. repeat destruct H as [<- | H]; try tauto; (split; [cbn; intuition discriminate|]; split; [cbv; lia|]; split; discriminate). Qed.
Lemma const_ok sh m : shapes_ok sh -> In m [S_ "BgSpin0"; S_ "Inco"; S_ "NoSym"] -> mod_ok sh m /\ ~ has "=" m /\ 3 <= List.length m.
Proof.
  intros _ H. assert (E : ~ has "=" m) by (cbn in H; repeat destruct H as [<- | H]; try tauto; unfold has; cbn; intuition discriminate).
  split; [|split; [exact E|cbn in H; repeat destruct H as [<- | H]; try tauto; cbn; lia]].
  split; [cbn in H; repeat destruct H as [<- | H]; try tauto; discriminate|].
  split; [intros a Ha; cbn in H; repeat destruct H as [<- | H]; try tauto; cbn in Ha; repeat destruct Ha as [<- | Ha]; try tauto; cbn; intuition discriminate|].
  split; [intros a Ha; cbn in H; repeat destruct H as [<- | H]; try tauto; cbn in Ha; repeat destruct Ha as [<- | Ha]; try tauto; cbv; lia|].
  split; [unfold has; cbn in H; repeat destruct H as [<- | H]; try tauto; cbn; intuition discriminate|]. intro Q. contradiction.
Qed.

Section node.
Context (sh : list str) (SH : shapes_ok sh) (e : str) (He : free_of punctuation e /\ ascii7 e /\ ~ has "=" e /\ ~ has "000" e) (nar pho : bool) (l : Z) (Hl : (0 <= l <= 6)%Z).
Notation look := (pdgLookup e nar pho l).

Lemma shape_dot x : isLineshape sh x = true -> ~ has "." x -> isLineshape sh (x ++ S_ "." ++ e) = true.
Proof.
  intros H D. apply isLineshape_spec in H. apply isLineshape_spec. change (S_ "." ++ e) with ("."%char :: e). change (S_ ".") with ["."%char] in *.
  rewrite find0_after by exact D. replace (find0 ["."%char] x) with (@None nat) in H by (symmetry; now apply find0_char). cbn [upto] in *. now rewrite firstn_app, firstn_all, Nat.sub_diag, firstn_O, app_nil_r.
Qed.

(** The lineshape that is printed. *)
Lemma look_shape mods : Forall (mod_ok sh) mods -> let st := look (read_modifiers sh mods) in
  usesDefault st = str_eqb (lineshape (read_modifiers sh mods)) (S_ "BW") /\
  (usesDefault st = true -> lineshape (read_modifiers sh mods) = S_ "BW") /\
  (usesDefault st = false -> isLineshape sh (lineshape st) = true /\ ~ has "=" (lineshape st) /\ mod_ok sh (lineshape st) /\ lineshape st <> S_ "BW" /\
     (e = [] \/ has "." (lineshape st))).
Proof.
  intros F st. destruct (read_inv sh SH mods F) as (_ & _ & Ls & U). unfold st, pdgLookup. cbn [usesDefault lineshape]. rewrite U, orb_false_r.
  set (R := read_modifiers sh mods) in *. destruct (str_eqb_spec (lineshape R) (S_ "BW")) as [B | B]; [repeat split; auto; discriminate|].
  split; [reflexivity|]. split; [discriminate|]. intros _. destruct Ls as [Ls | [I Ls]]; [congruence|].
  assert (M : mod_ok sh (lineshape R)) by (rewrite Forall_forall in F; auto). pose proof M as (N & P & A & Z & Eq).
  assert (NE : ~ has "=" (lineshape R)) by (intro Q; destruct (Eq Q); congruence).
  destruct e as [|e0 e'] eqn:Ee.
  - split; [exact Ls|]. split; [exact NE|]. split; [exact M|]. split; [exact B|now left].
  - destruct (find0 (S_ ".") (lineshape R)) as [i|] eqn:Fd.
    + split; [exact Ls|]. split; [exact NE|]. split; [exact M|]. split; [exact B|]. right. unfold has. change (S_ ".") with ["."%char] in Fd.
      destruct (in_dec ascii_dec "."%char (lineshape R)) as [Q | Q]; [exact Q|]. apply find0_char in Q. congruence.
    + assert (D : ~ has "." (lineshape R)) by (apply find0_char; exact Fd). destruct He as (E1 & E2 & E3 & E4). rewrite <- Ee in *.
      assert (In_parts : forall a, In a (lineshape R ++ S_ "." ++ e) -> In a (lineshape R) \/ a = "."%char \/ In a e).
      { intros a Ha. apply in_app_or in Ha as [Ha | Ha]; [now left|]. cbn in Ha. destruct Ha as [<- | Ha]; auto. }
      assert (NE' : ~ has "=" (lineshape R ++ S_ "." ++ e)) by (intro Q; apply In_parts in Q as [Q | [Q | Q]]; [auto|discriminate|auto]).
      split; [now apply shape_dot|]. split; [exact NE'|]. split.
      * split; [destruct (lineshape R); discriminate|]. split; [intros a Ha; apply In_parts in Ha as [Ha | [-> | Ha]]; [now apply P|cbn; intuition discriminate|now apply E1]|].
        split; [intros a Ha; apply In_parts in Ha as [Ha | [-> | Ha]]; [now apply A|cbv; lia|now apply E2]|].
        split; [intro Q; apply In_parts in Q as [Q | [Q | Q]]; [auto|discriminate|auto]|]. intro Q. contradiction.
      * split; [|right; unfold has; apply in_or_app; right; now left]. intro Q. assert (H : In "."%char (S_ "BW")) by (rewrite <- Q; apply in_or_app; right; now left). cbn in H. intuition discriminate.
Qed.

(** The spin-orbit part. *)
Definition orb_part (st : nstate) : res (list str) := if negb (Z.eqb (orbital st) (minL st)) || negb (Z.eqb (conf st) 0) then bind (orbitalString st) (fun o => Ok [o]) else Ok [].
Lemma look_orb mods : Forall (mod_ok sh) mods -> (forall m m', In m mods -> In m' mods -> is_vertex m -> ~ is_short sh m') ->
  let st := look (read_modifiers sh mods) in
  exists l1, orb_part st = Ok l1 /\ Forall (mod_ok sh) l1 /\ Forall (fun m => ~ has "=" m) l1 /\ Forall (fun m => List.length m <= 2) l1 /\ (vertexName st <> [] -> l1 = []) /\
    forall s0, orbital s0 = 0%Z -> conf s0 = 0%Z -> exists o', fold_left (fun st m => parseModifier sh m st) l1 s0 = NState o' (minL s0) (conf st) (lineshape s0) (usesDefault s0) (vertexName s0) (modifiers s0) /\
      (if Z.eqb o' 0 then l else o') = orbital st.
Proof.
  intros F V st. destruct (read_inv sh SH mods F) as (O & C & _ & _). set (R := read_modifiers sh mods) in *.
  assert (So : orbital st = if Z.eqb (orbital R) 0 then l else orbital R) by reflexivity. assert (Sc : conf st = conf R) by reflexivity. assert (Sm : minL st = l) by reflexivity.
  assert (Sv : vertexName st = vertexName R) by reflexivity. assert (Or : (0 <= orbital st <= 6)%Z) by (rewrite So; destruct (Z.eqb (orbital R) 0); lia).
  assert (Oz : orbital st = 0%Z -> l = 0%Z) by (rewrite So; destruct (Z.eqb_spec (orbital R) 0); lia).
  assert (Vx : vertexName R <> [] -> orbital R = 0%Z /\ conf R = 0%Z).
  { intro N. unfold R in N. unfold read_modifiers in N. rewrite (proj1 (read_vertex sh SH mods _ F)) in N. cbn [vertexName] in N.
    destruct (vset_change (filter has_eq mods) []) as [Q | (m & I & Vm)]; [congruence|]. apply filter_In in I as [I _].
    pose proof (read_long sh SH mods (NState 0 0 0 (S_ "BW") false [] mods) F (fun m' Im' => V m m' I Im' Vm)). exact H. }
  unfold orb_part. destruct (negb (Z.eqb (orbital st) (minL st)) || negb (Z.eqb (conf st) 0)) eqn:Cd.
  - assert (Ve : vertexName st = []).
    { destruct (vertexName st) eqn:Q; [reflexivity|]. exfalso. rewrite Sv in Q. destruct Vx as [V1 V2]; [congruence|]. rewrite So, V1, Sm, Sc, V2 in Cd. cbn in Cd. rewrite Z.eqb_refl in Cd. discriminate. }
    unfold orbitalString. rewrite Ve. destruct (Z.ltb_spec (orbital st) 0); [lia|].
    destruct (orb_back (Z.to_nat (orbital st))) as (o & No & Fo & Io); [lia|]. rewrite No. cbn [of_opt bind].
    destruct (orb_plain o Io) as (P1 & P2 & P3 & P4).
    assert (Ob : forall s, parse_char o s = NState (orbital st) (minL s) (conf s) (lineshape s) (usesDefault s) (vertexName s) (modifiers s)).
    { intro s. rewrite (parse_orb o _ s Fo). now rewrite Z2Nat.id by lia. }
    assert (Oe : (if Z.eqb (orbital st) 0 then l else orbital st) = orbital st) by (destruct (Z.eqb_spec (orbital st) 0); [rewrite (Oz e0); lia|reflexivity]).
    rewrite Sc. destruct (Z.eqb_spec (conf R) 0) as [C0 | C0].
    + exists [[o]]. split; [reflexivity|]. assert (NE : ~ has "=" [o]) by (intros [Q | []]; congruence).
      split; [constructor; [|constructor]; split; [discriminate|]; split; [intros a [<- | []]; exact P1|]; split; [intros a [<- | []]; exact P2|]; split; [intros [Q | []]; congruence|intro; contradiction]|].
      split; [constructor; [exact NE|constructor]|]. split; [constructor; [cbn; lia|constructor]|]. split; [congruence|].
      intros s0 O0 C0'. exists (orbital st). cbn [fold_left]. rewrite pm_none by (exact SH || exact NE). rewrite shape_char by exact SH. rewrite Ob, C0, C0'. split; [reflexivity|exact Oe].
    + destruct C as [C | (c & Cc & C)]; [congruence|]. assert (Cb := conf_back c Cc). rewrite <- C in Cb. rewrite (Cb C0). exists [[o; c]]. split; [reflexivity|].
      pose proof Cc as (K1 & K2 & K3 & K4 & K5). assert (NE : ~ has "=" [o; c]) by (intros [Q | [Q | []]]; congruence).
      split; [constructor; [|constructor]; split; [discriminate|]; split; [intros a [<- | [<- | []]]; assumption|]; split; [intros a [<- | [<- | []]]; assumption|]; split; [intros [Q | [Q | []]]; congruence|intro; contradiction]|].
      split; [constructor; [exact NE|constructor]|]. split; [constructor; [cbn; lia|constructor]|]. split; [congruence|].
      intros s0 O0 C0'. exists (orbital st). cbn [fold_left]. rewrite pm_none by (exact SH || exact NE). rewrite shape_orb by (exact SH || exact Io). rewrite Ob, parse_conf by exact Cc. cbn. rewrite <- C. split; [reflexivity|exact Oe].
  - exists []. split; [reflexivity|]. do 3 (split; [constructor|]). apply orb_false_iff in Cd as [C1 C2]. apply negb_false_iff, Z.eqb_eq in C1, C2.
    split; [reflexivity|]. intros s0 O0 C0. exists 0%Z. cbn [fold_left]. split; [|cbn; congruence]. destruct s0; cbn in *. congruence.
Qed.
End node.

Lemma filter_filter_eq l : filter has_eq (filter has_eq l) = filter has_eq l.
Proof. induction l as [|a l IH]; [reflexivity|]. cbn. destruct (has_eq a) eqn:E; cbn; rewrite ?E, ?IH; reflexivity. Qed.
Lemma filter_none l : Forall (fun m => ~ has "=" m) l -> filter has_eq l = [].
Proof. induction 1 as [|m r H F IH]; [reflexivity|]. cbn. apply has_eq_false in H. now rewrite H. Qed.
Lemma attribute_eq key l : attribute key l = attribute key (filter has_eq l).
Proof.
  induction l as [|m r IH]; [reflexivity|]. cbn [filter]. destruct (has_eq m) eqn:E; [cbn [attribute]; now rewrite IH|]. apply has_eq_false in E.
  cbn [attribute]. pose proof (split_none m E) as N. destruct (split m "=" true) as [|k [|v [|]]]; auto. exfalso. now apply (N k v).
Qed.
Definition consts := [S_ "BgSpin0"; S_ "Inco"; S_ "NoSym"].
Definition l3_of (st : nstate) := filter (fun m => existsb (str_eqb m) (modifiers st)) consts.
Lemma l3_spec st m : In m (l3_of st) <-> In m consts /\ In m (modifiers st).
Proof.
  unfold l3_of. rewrite filter_In, existsb_exists. split; intros [H1 H2]; split; auto.
  - destruct H2 as (x & I & E). apply str_eqb_eq in E. now subst.
  - exists m. split; [exact H2|apply str_eqb_refl].
Qed.
Definition l2_of (st : nstate) := if usesDefault st then [] else [lineshape st].
Lemma printed_parts st l1 : orb_part st = Ok l1 -> printed st = Ok (l1 ++ l2_of st ++ l3_of st ++ filter has_eq (modifiers st)).
Proof. intro H. unfold printed. fold (orb_part st). rewrite H. reflexivity. Qed.
Lemma orb_part_ext a b : orbital a = orbital b -> minL a = minL b -> conf a = conf b -> vertexName a = vertexName b -> orb_part a = orb_part b.
Proof. intros O M C V. unfold orb_part, orbitalString. now rewrite O, M, C, V. Qed.

Section node2.
Context (sh : list str) (SH : shapes_ok sh) (e : str) (He : free_of punctuation e /\ ascii7 e /\ ~ has "=" e /\ ~ has "000" e) (nar pho : bool) (l : Z) (Hl : (0 <= l <= 6)%Z).
Notation look := (pdgLookup e nar pho l).

Lemma fold_const s0 k : Forall (fun m => In m consts) k -> fold_left (fun st m => parseModifier sh m st) k s0 = s0.
Proof.
  revert s0; induction k as [|m r IH]; intros s0 F; [reflexivity|]. cbn [fold_left]. pose proof (Forall_inv F) as I.
  rewrite pm_none by (exact SH || exact (proj1 (proj2 (const_ok sh m SH I)))). rewrite shape_const by (exact SH || exact I).
  pose proof (proj2 (proj2 (const_ok sh m SH I))). destruct m as [|a [|b [|]]]; cbn in H; try lia. apply IH. exact (Forall_inv_tail F).
Qed.
Lemma fold_eqs s0 k : Forall (mod_ok sh) k -> Forall (fun m => has "=" m) k ->
  fold_left (fun st m => parseModifier sh m st) k s0 = with_vertex (fold_left (fun v m => vset m v) k (vertexName s0)) s0.
Proof.
  revert s0; induction k as [|m r IH]; intros s0 F H; [destruct s0; reflexivity|]. cbn [fold_left]. destruct (Forall_inv F) as (_ & _ & _ & _ & Q). destruct (Q (Forall_inv H)) as [L S].
  rewrite pm_eq by assumption. rewrite IH by (exact (Forall_inv_tail F) || exact (Forall_inv_tail H)). destruct s0; reflexivity.
Qed.

Lemma node_print mods : Forall (mod_ok sh) mods -> (forall m m', In m mods -> In m' mods -> is_vertex m -> ~ is_short sh m') ->
  let st := look (read_modifiers sh mods) in
  exists P, printed st = Ok P /\ Forall (mod_ok sh) P /\ (forall m m', In m P -> In m' P -> is_vertex m -> ~ is_short sh m') /\
    let st' := look (read_modifiers sh P) in same_state st st' /\ printed st' = Ok P.
Proof.
  intros F V st. set (R := read_modifiers sh mods).
  destruct (look_orb sh SH e nar pho l Hl mods F V) as (l1 & O1 & Ok1 & Ne1 & Len1 & Vx & Rd).
  destruct (look_shape sh SH e He nar pho l Hl mods F) as (D1 & D2 & D3). fold st in O1, Vx, Rd, D1, D2, D3.
  destruct (read_vertex sh SH mods (NState 0 0 0 (S_ "BW") false [] mods) F) as [RV RM]. cbn [vertexName modifiers] in RV, RM. fold (read_modifiers sh mods) in RV, RM.
  assert (Sm : modifiers st = mods) by exact RM. assert (Sv : vertexName st = fold_left (fun v m => vset m v) (filter has_eq mods) []) by exact RV.
  set (l4 := filter has_eq mods) in *. exists (l1 ++ l2_of st ++ l3_of st ++ l4).
  assert (Pr : printed st = Ok (l1 ++ l2_of st ++ l3_of st ++ l4)) by (rewrite (printed_parts st l1 O1), Sm; reflexivity).
  set (P := l1 ++ l2_of st ++ l3_of st ++ l4) in *.
  assert (Ok2 : Forall (mod_ok sh) (l2_of st)) by (unfold l2_of; destruct (usesDefault st) eqn:U; constructor; [apply D3; reflexivity|constructor]).
  assert (Ne2 : Forall (fun m => ~ has "=" m) (l2_of st)) by (unfold l2_of; destruct (usesDefault st) eqn:U; constructor; [apply D3; reflexivity|constructor]).
  assert (C3 : Forall (fun m => In m consts) (l3_of st)) by (apply Forall_forall; intros m I; apply l3_spec in I; tauto).
  assert (Ok3 : Forall (mod_ok sh) (l3_of st)) by (eapply Forall_impl; [|exact C3]; intros m I; exact (proj1 (const_ok sh m SH I))).
  assert (Ne3 : Forall (fun m => ~ has "=" m) (l3_of st)) by (eapply Forall_impl; [|exact C3]; intros m I; exact (proj1 (proj2 (const_ok sh m SH I)))).
  assert (Ok4 : Forall (mod_ok sh) l4) by (apply Forall_forall; intros m I; apply filter_In in I as [I _]; rewrite Forall_forall in F; auto).
  assert (E4 : Forall (fun m => has "=" m) l4) by (apply Forall_forall; intros m I; apply filter_In in I as [_ I]; now apply has_eq_spec).
  assert (OkP : Forall (mod_ok sh) P) by (unfold P; rewrite !Forall_app; auto).
  assert (FP : filter has_eq P = l4) by (unfold P; rewrite !filter_app, (filter_none l1 Ne1), (filter_none _ Ne2), (filter_none _ Ne3); cbn [app]; apply filter_filter_eq).
  split; [exact Pr|]. split; [exact OkP|].
  assert (VP : forall m m', In m P -> In m' P -> is_vertex m -> ~ is_short sh m').
  { intros m m' I I' Vm.
    assert (Em : has "=" m) by (destruct Vm as [v Sp]; destruct (in_dec ascii_dec "="%char m) as [Q | Q]; [exact Q|]; exfalso; exact (split_none m Q _ _ Sp)).
    assert (Im : In m l4) by (rewrite <- FP; apply filter_In; split; [exact I|now apply has_eq_spec]).
    assert (Im0 : In m mods) by (apply filter_In in Im; tauto).
    unfold P in I'. rewrite !in_app_iff in I'. destruct I' as [I' | [I' | [I' | I']]].
    - exfalso.
      assert (NS : forall m', In m' mods -> ~ is_short sh m') by (intros x Ix; exact (V m x Im0 Ix Vm)).
      destruct (read_long sh SH mods (NState 0 0 0 (S_ "BW") false [] mods) F NS) as [Or Cr]. cbn [orbital conf] in Or, Cr. fold (read_modifiers sh mods) in Or, Cr. fold R in Or, Cr.
      unfold orb_part in O1. assert (So : orbital st = l) by (unfold st; cbn [pdgLookup orbital]; fold R; now rewrite Or). assert (Sc : conf st = 0%Z) by exact Cr. assert (Sl : minL st = l) by reflexivity.
      rewrite So, Sc, Sl, Z.eqb_refl in O1. cbn in O1. injection O1 as <-. exact I'.
    - unfold l2_of in I'. destruct (usesDefault st) eqn:U; [destruct I'|]. destruct I' as [<- | []]. destruct D3 as (Q & _); [reflexivity|]. intros [_ S]. congruence.
    - rewrite Forall_forall in C3. apply C3 in I'. intros [L _]. pose proof (proj2 (proj2 (const_ok sh m' SH I'))). lia.
    - rewrite Forall_forall in Ok4, E4. destruct (Ok4 m' I') as (_ & _ & _ & _ & Q). destruct (Q (E4 m' I')) as [L _]. intros [L' _]. lia. }
  split; [exact VP|]. intros st'.
  (* reading the printed modifiers *)
  assert (RP : exists o', read_modifiers sh P = NState o' 0 (conf st) (if usesDefault st then S_ "BW" else lineshape st) false (vertexName st) P /\ (if Z.eqb o' 0 then l else o') = orbital st).
  { unfold read_modifiers. set (s0 := NState 0 0 0 (S_ "BW") false [] P). destruct (Rd s0 eq_refl eq_refl) as (o' & E1 & Eo). exists o'. split; [|exact Eo].
    unfold P at 1. rewrite !fold_left_app, E1. cbn [minL lineshape usesDefault vertexName modifiers s0].
    assert (E2 : fold_left (fun st m => parseModifier sh m st) (l2_of st) (NState o' 0 (conf st) (S_ "BW") false [] P) = NState o' 0 (conf st) (if usesDefault st then S_ "BW" else lineshape st) false [] P).
    { unfold l2_of. destruct (usesDefault st) eqn:U; [reflexivity|]. destruct D3 as (Q1 & Q2 & _); [reflexivity|]. cbn [fold_left]. rewrite pm_none by (exact SH || exact Q2). rewrite Q1. reflexivity. }
    rewrite E2, (fold_const _ (l3_of st) C3), (fold_eqs _ l4 Ok4 E4). unfold with_vertex. cbn [orbital minL conf lineshape usesDefault vertexName modifiers]. now rewrite Sv. }
  destruct RP as (o' & RP & Eo).
  assert (Uq : usesDefault st' = usesDefault st /\ lineshape st' = lineshape st).
  { unfold st'. rewrite RP. unfold pdgLookup at 1 2. cbn [usesDefault lineshape]. rewrite orb_false_r. destruct (usesDefault st) eqn:U.
    - split; [apply str_eqb_refl|]. rewrite str_eqb_refl. unfold st at 1, pdgLookup. cbn [lineshape]. pose proof (D2 eq_refl) as B. rewrite B, str_eqb_refl. reflexivity.
    - destruct D3 as (_ & _ & _ & B & X); [reflexivity|]. assert (Bn : str_eqb (lineshape st) (S_ "BW") = false) by (destruct (str_eqb_spec (lineshape st) (S_ "BW")); congruence). rewrite Bn. split; [reflexivity|].
      destruct X as [-> | X]; [reflexivity|]. destruct e; [reflexivity|]. destruct (find0 (S_ ".") (lineshape st)) eqn:Fd; [reflexivity|]. exfalso. apply find0_char in Fd. contradiction. }
  destruct Uq as [Uq Lq].
  assert (Oq : orbital st' = orbital st) by (unfold st'; rewrite RP; cbn [pdgLookup orbital]; exact Eo).
  assert (Cq : conf st' = conf st) by (unfold st'; rewrite RP; reflexivity). assert (Vq : vertexName st' = vertexName st) by (unfold st'; rewrite RP; reflexivity).
  assert (Mq : modifiers st' = P) by (unfold st'; rewrite RP; reflexivity).
  assert (Cn : forall m, In m consts -> (In m mods <-> In m P)).
  { intros m I. unfold P. rewrite !in_app_iff. split; [intro Im; right; right; left; apply l3_spec; rewrite Sm; auto|]. intros [H | [H | [H | H]]].
    - rewrite Forall_forall in Len1. apply Len1 in H. pose proof (proj2 (proj2 (const_ok sh m SH I))). lia.
    - unfold l2_of in H. destruct (usesDefault st) eqn:U; [destruct H|]. destruct H as [<- | []]. destruct D3 as (Q & _); [reflexivity|]. rewrite (shape_const sh SH _ I) in Q. discriminate.
    - apply l3_spec in H as [_ H]. now rewrite Sm in H.
    - apply filter_In in H. tauto. }
  split.
  - unfold same_state. rewrite Oq, Cq, Vq, Uq, Lq, Mq, Sm. repeat (split; [reflexivity|]). split.
    + intro key. rewrite (attribute_eq key mods), (attribute_eq key P), FP. reflexivity.
    + exact Cn.
  - assert (O1' : orb_part st' = Ok l1) by (rewrite (orb_part_ext st' st); auto). rewrite (printed_parts st' l1 O1'), Mq, FP. f_equal. unfold P. f_equal.
    assert (L2 : l2_of st' = l2_of st) by (unfold l2_of; now rewrite Uq, Lq). rewrite L2. f_equal. f_equal. unfold l3_of. apply filter_ext_in. intros m I. rewrite Mq, Sm.
    apply eq_true_iff_eq. rewrite !existsb_exists. split; intros (x & Ix & E); apply str_eqb_eq in E; subst x; exists m; (split; [now apply (Cn m I)|apply str_eqb_refl]).
Qed.
End node2.

(** ** Whole trees *)
Lemma join_joined l : join l = joined "," l.
Proof. induction l as [|x r IH]; [reflexivity|]. cbn [join joined]. destruct r; [reflexivity|]. rewrite IH. reflexivity. Qed.

Lemma tree_print w t : world_ok w -> tree_ok w t -> exists t', descriptor (made w t) = Ok (text t') /\ tree_ok w t' /\ tree_names t' = tree_names t /\ height t' = height t /\
  same (made w t) (made w t') /\ descriptor (made w t') = Ok (text t').
Proof.
  intros (SH & He). induction t as [n mods ds IH] using tree_ind'. intro H. inversion H as [? ? ? Hn Hk Hm Hv Hl Hd]; subst.
  assert (D : exists es, all_ok (map descriptor (map (made w) ds)) = Ok (map text es) /\ Forall (tree_ok w) es /\ map tree_names es = map tree_names ds /\ map height es = map height ds /\
              Forall2 same (map (made w) ds) (map (made w) es) /\ all_ok (map descriptor (map (made w) es)) = Ok (map text es)).
  { clear - IH Hd. induction ds as [|d r IHr]; [exists []; repeat split; constructor|].
    destruct (Forall_inv IH (Forall_inv Hd)) as (t' & A1 & A2 & A3 & A4 & A5 & A6). destruct (IHr (Forall_inv_tail IH) (Forall_inv_tail Hd)) as (es & B1 & B2 & B3 & B4 & B5 & B6).
    exists (t' :: es). cbn [map all_ok]. rewrite A1, A6, A3, A4, B3, B4. cbn [bind]. rewrite B1, B6. cbn [bind]. repeat split; auto. }
  destruct D as (es & D1 & D2 & D3 & D4 & D5 & D6).
  destruct (node_print (shapes w) SH (extra w) He (narrow w n) (photon w n) (leastL w (tree_names (Tree n mods ds))) Hl mods Hm Hv) as (P & Pr & OkP & VP & Ss & Pr').
  exists (Tree n P es).
  assert (TN : tree_names (Tree n P es) = tree_names (Tree n mods ds)) by (cbn [tree_names]; now rewrite D3).
  assert (TN' : tree_names (Tree n mods ds) = Names n (map tree_names ds)) by reflexivity.
  assert (NE : Forall (fun x : str => x <> []) P) by (eapply Forall_impl; [|exact OkP]; intros m M; exact (proj1 M)).
  assert (Ds : ds = [] <-> es = []) by (pose proof (f_equal (@List.length _) D4) as L; rewrite !map_length in L; destruct ds, es; cbn in L; split; congruence || lia).
  assert (Go : forall st fs, printed st = Ok P -> all_ok (map descriptor (map (made w) fs)) = Ok (map text es) -> (fs = [] <-> es = []) ->
            descriptor (Part n st (map (made w) fs)) = Ok (text (Tree n P es))).
  { intros st fs Ps Al Em. cbn [descriptor]. destruct (modifierString_text st P n Ps NE) as (m & Em1 & Em2). rewrite Em1. cbn [bind]. destruct fs as [|f fs].
    - rewrite (proj1 Em eq_refl). cbn [map text]. now rewrite Em2.
    - cbn [map]. cbn [map] in Al. rewrite Al. cbn [bind]. destruct es as [|e0 es]; [exfalso; pose proof (proj2 Em eq_refl) as Q; discriminate Q|].
      cbn [text]. rewrite join_joined, app_assoc, Em2. reflexivity. }
  split; [cbn [made state_of]; apply Go; [exact Pr|exact D1|exact Ds]|]. split; [constructor; auto; now rewrite TN|]. split; [exact TN|].
  split; [cbn [height]; now rewrite D4|]. split.
  - cbn [made state_of]. rewrite TN. constructor; [exact Ss|exact D5].
  - cbn [made state_of]. rewrite TN. apply Go; [exact Pr'|exact D6|tauto].
Qed.

(** ** isValidDecayDescriptor *)
Definition DL : list ascii := ["{"; "}"; ","]%char.
Notation loop := (split_delims_loop DL false).
Definition flush (x : str) : list str := match x with [] => [] | _ => [x] end.
Definition nodelim (x : str) := forall a, In a x -> mem_char a DL = false.
Lemma loop_plain x rest : nodelim x -> forall tmp, loop tmp (x ++ rest) = loop (tmp ++ x) rest.
Proof.
  induction x as [|a x IH]; intros H tmp; [now rewrite app_nil_r|]. cbn [app split_delims_loop]. rewrite (H a (or_introl eq_refl)), IH by (intros b I; apply H; now right).
  now rewrite <- app_assoc.
Qed.
Lemma loop_delim a tmp rest : mem_char a DL = true -> loop tmp (a :: rest) = flush tmp ++ loop [] rest.
Proof. intro H. cbn [split_delims_loop]. rewrite H. reflexivity. Qed.
Lemma plain_nodelim x : plain "{" "}" "," x -> nodelim x.
Proof. intros H a I. destruct (H a I) as (A & B & C). unfold mem_char, DL. cbn [existsb]. now rewrite (eqb_neq _ _ A), (eqb_neq _ _ B), (eqb_neq _ _ C). Qed.
Fixpoint heads (t : tree) : list str := let '(Tree n mods ds) := t in head_text n mods :: flat_map heads ds.
Lemma head_nonempty n mods : n <> [] -> head_text n mods <> [].
Proof. destruct n; [congruence|]. destruct mods; discriminate. Qed.
Definition starts_delim (rest : str) := match rest with [] => True | a :: _ => mem_char a DL = true end.
Lemma loop_stop tmp rest : starts_delim rest -> tmp <> [] -> loop tmp rest = tmp :: loop [] rest.
Proof. destruct rest as [|a r]; intros H N; [destruct tmp; [congruence|reflexivity]|]. cbn in H. rewrite !(loop_delim a _ _ H). destruct tmp; [congruence|reflexivity]. Qed.

Definition daughters (t : tree) : list tree := let '(Tree _ _ ds) := t in ds.
Lemma loop_text t : plain_tree t -> forall rest, (daughters t = [] -> starts_delim rest) -> forall pre, nodelim pre ->
  loop [] (pre ++ text t ++ rest) = (match heads t with h :: r => (pre ++ h) :: r | [] => [] end) ++ loop [] rest.
Proof.
  induction t as [n mods ds IH] using tree_ind'. intros H rest St pre Np. inversion H as [? ? ? Nn Fn _ _ Fm Fd]; subst.
  pose proof (plain_nodelim _ (head_plain n mods Fn Fm)) as Hh. pose proof (head_nonempty n mods Nn) as Hne. cbn [heads text daughters] in *.
  assert (Ne : pre ++ head_text n mods <> []) by (intro E; apply app_eq_nil in E; tauto).
  destruct ds as [|d r].
  - rewrite app_assoc, loop_plain by (intros a I; apply in_app_or in I as []; auto). cbn [flat_map app]. apply loop_stop; [apply St; reflexivity|exact Ne].
  - rewrite <- app_assoc, app_assoc, loop_plain by (intros a I; apply in_app_or in I as []; auto). cbn [app].
    assert (J : forall l rest', Forall plain_tree l -> Forall (fun t => forall rest, (daughters t = [] -> starts_delim rest) -> forall pre, nodelim pre ->
        loop [] (pre ++ text t ++ rest) = (match heads t with h :: r => (pre ++ h) :: r | [] => [] end) ++ loop [] rest) l -> starts_delim rest' -> loop [] (joined "," (map text l) ++ rest') = flat_map heads l ++ loop [] rest').
    { clear. induction l as [|t l IHl]; intros rest' Fp F S; [reflexivity|]. pose proof (Forall_inv F) as Ft. cbn beta in Ft. cbn [map flat_map]. destruct l as [|t2 l].
      - cbn [map joined flat_map]. rewrite app_nil_r. specialize (Ft rest' (fun _ => S) [] (fun a (I : In a []) => match I with end)). cbn [app] in Ft. rewrite Ft. destruct t; reflexivity.
      - change (joined "," (text t :: map text (t2 :: l))) with (text t ++ ","%char :: joined "," (map text (t2 :: l))). rewrite <- app_assoc. cbn [app].
        specialize (Ft (","%char :: joined "," (map text (t2 :: l)) ++ rest') (fun _ => eq_refl) [] (fun a (I : In a []) => match I with end)). cbn [app] in Ft. rewrite Ft.
        rewrite (loop_delim ","%char) by reflexivity. cbn [flush app]. rewrite IHl by (exact (Forall_inv_tail Fp) || exact (Forall_inv_tail F) || exact S). rewrite <- app_assoc. destruct t; reflexivity. }
    rewrite (loop_delim "{"%char) by reflexivity. rewrite <- app_assoc. cbn [app].
    rewrite J; [|exact Fd| |reflexivity].
    + rewrite (loop_delim "}"%char) by reflexivity. destruct (pre ++ head_text n mods) eqn:E; [congruence|]. cbn [flush app]. reflexivity.
    + clear - IH Fd. induction IH as [|t l P F IHl]; constructor; [exact (P (Forall_inv Fd))|apply IHl; exact (Forall_inv_tail Fd)].
Qed.

Lemma find_char_none c s : ~ In c s -> find_char c s = None.
Proof. induction s as [|a s IH]; intro H; [reflexivity|]. cbn. destruct (Ascii.eqb_spec a c); [subst; exfalso; apply H; now left|]. rewrite IH; [reflexivity|]. intro. apply H. now right. Qed.
Lemma find_char_after c x y : ~ In c x -> find_char c (x ++ c :: y) = Some (List.length x).
Proof.
  induction x as [|a x IH]; intro H; cbn; [now rewrite Ascii.eqb_refl|]. destruct (Ascii.eqb_spec a c); [subst; exfalso; apply H; now left|]. rewrite IH; [reflexivity|]. intro. apply H. now right.
Qed.
Lemma up_to_head n mods : free_of punctuation n -> up_to_bracket (head_text n mods) = n.
Proof.
  intro F. assert (N : ~ In "["%char n) by (intro I; apply (F _ I); cbn; tauto). unfold up_to_bracket, head_text. destruct mods; [rewrite find_char_none by exact N; reflexivity|].
  rewrite find_char_after by exact N. cbn [upto]. now rewrite firstn_app, firstn_all, Nat.sub_diag, firstn_O, app_nil_r.
Qed.

Lemma positions_count c s k : List.length (positions c k s) = count_occ ascii_dec s c.
Proof.
  revert k; induction s as [|a s IH]; intro k; [reflexivity|]. cbn [positions count_occ]. rewrite app_length, IH. destruct (Ascii.eqb_spec a c), (ascii_dec a c); try congruence; reflexivity.
Qed.
Lemma count_is c s : count c s = count_occ ascii_dec s c.
Proof. apply positions_count. Qed.
Lemma count_zero c s : ~ In c s -> count c s = 0.
Proof. intro H. rewrite count_is. now apply count_occ_not_In. Qed.
Lemma count_app c s t : count c (s ++ t) = count c s + count c t.
Proof. rewrite !count_is. apply count_occ_app. Qed.
Lemma count_cons c a t : count c (a :: t) = (if Ascii.eqb a c then 1 else 0) + count c t.
Proof. rewrite !count_is. cbn [count_occ]. destruct (Ascii.eqb_spec a c), (ascii_dec a c); congruence || reflexivity. Qed.
Lemma count_joined (c o sep : ascii) l : c <> sep -> o <> sep -> Forall (fun s => count c s = count o s) l -> count c (joined sep l) = count o (joined sep l).
Proof.
  intros Nc No F. induction F as [|x r H F IH]; [reflexivity|]. destruct r as [|y r]; [exact H|]. change (joined sep (x :: y :: r)) with (x ++ sep :: joined sep (y :: r)).
  rewrite !count_app, !count_cons, (eqb_neq sep c), (eqb_neq sep o) by congruence. lia.
Qed.
Lemma count_text t : plain_tree t -> count "{" (text t) = count "}" (text t) /\ (daughters t <> [] -> count "{" (text t) > 0).
Proof.
  induction t as [n mods ds IH] using tree_ind'. intro H. inversion H as [? ? ? Nn Fn _ _ Fm Fd]; subst. pose proof (head_plain n mods Fn Fm) as Hp.
  assert (Ho : count "{" (head_text n mods) = 0) by (apply count_zero; intro I; destruct (Hp _ I) as (Q & _); congruence).
  assert (Hc : count "}" (head_text n mods) = 0) by (apply count_zero; intro I; destruct (Hp _ I) as (_ & Q & _); congruence).
  cbn [text daughters]. destruct ds as [|d r]; [split; [congruence|congruence]|].
  assert (J : count "{" (joined "," (map text (d :: r))) = count "}" (joined "," (map text (d :: r)))).
  { apply count_joined; [discriminate|discriminate|]. apply Forall_forall. intros x I. apply in_map_iff in I as (t & <- & I). rewrite Forall_forall in IH, Fd. apply IH; auto. }
  rewrite !count_app, !count_cons, !count_app, Ho, Hc, J. cbn. split; lia.
Qed.

Lemma forallb_flat {A B} (f : B -> bool) (g : A -> list B) l : forallb f (flat_map g l) = forallb (fun a => forallb f (g a)) l.
Proof. induction l as [|a l IH]; [reflexivity|]. cbn. now rewrite forallb_app, IH. Qed.
Definition skip_token (t : str) : bool := str_eqb t (S_ "_Re") || str_eqb t (S_ "_Im").
Lemma skip_head n mods : free_of punctuation n -> n <> S_ "_Re" -> n <> S_ "_Im" -> skip_token (head_text n mods) = false.
Proof.
  intros F R I. unfold skip_token. destruct mods as [|m r]; [cbn [head_text]; destruct (str_eqb_spec n (S_ "_Re")), (str_eqb_spec n (S_ "_Im")); congruence || reflexivity|].
  assert (B : In "["%char (head_text n (m :: r))) by (cbn [head_text]; apply in_or_app; right; now left).
  destruct (str_eqb_spec (head_text n (m :: r)) (S_ "_Re")) as [E | _]; [rewrite E in B; cbn in B; intuition discriminate|].
  destruct (str_eqb_spec (head_text n (m :: r)) (S_ "_Im")) as [E | _]; [rewrite E in B; cbn in B; intuition discriminate|]. reflexivity.
Qed.
Lemma heads_known known t : plain_tree t -> forallb (fun x => skip_token x || known (up_to_bracket x)) (heads t) = forallb known (all_names t).
Proof.
  induction t as [n mods ds IH] using tree_ind'. intro H. inversion H as [? ? ? Nn Fn N1 N2 Fm Fd]; subst. cbn [heads all_names forallb]. rewrite skip_head, up_to_head by assumption. cbn [orb]. f_equal.
  rewrite !forallb_flat. clear - IH Fd. induction ds as [|d r IHr]; [reflexivity|]. cbn [forallb]. rewrite (Forall_inv IH (Forall_inv Fd)), IHr; [reflexivity|exact (Forall_inv_tail IH)|exact (Forall_inv_tail Fd)].
Qed.

Lemma valid_text known pre sfx t : plain_tree t -> daughters t <> [] -> prefix_ok pre t -> In sfx [[]; S_ "_Re"; S_ "_Im"] ->
  isValidDecayDescriptor known (pre ++ text t ++ sfx) = forallb known (all_names t).
Proof.
  intros Pt Nd Pp Hs. destruct (count_text t Pt) as [C1 C2]. specialize (C2 Nd).
  assert (Fp : nodelim pre /\ count "{" pre = 0 /\ count "}" pre = 0).
  { destruct t as [n mods ds]. destruct Pp as [[-> _] | (q & _ & -> & Fq & _)]; [repeat split; intros a []|]. pose proof (free_plain_brace q Fq) as Q.
    assert (Q' : plain "{" "}" "," (q ++ ["_"%char])) by (apply plain_app; [exact Q|]; intros a [<- | []]; repeat split; discriminate).
    split; [now apply plain_nodelim|]. split; apply count_zero; intro I; destruct (Q' _ I) as (A & B & _); congruence. }
  destruct Fp as (Np & P1 & P2).
  assert (Fs : count "{" sfx = 0 /\ count "}" sfx = 0 /\ forallb (fun x => skip_token x || known (up_to_bracket x)) (loop [] sfx) = true) by (destruct Hs as [<- | [<- | [<- | []]]]; repeat split; reflexivity).
  destruct Fs as (S1 & S2 & S3).
  unfold isValidDecayDescriptor. rewrite !count_app, P1, P2, S1, S2, <- C1.
  destruct (Nat.eqb_spec (0 + (count "{" (text t) + 0)) 0) as [Z0 | Z0]; [lia|]. rewrite Nat.eqb_refl. cbn [orb negb].
  unfold split_delims. fold DL. rewrite loop_text by (auto; tauto). fold skip_token.
  pose proof (heads_known known t Pt) as HK. destruct t as [n mods ds]. inversion Pt as [? ? ? Nn Fn N1 N2 Fm Fd]; subst. cbn [heads app].
  cbn [heads forallb] in HK. fold skip_token. rewrite forallb_app. change (fun t : str => str_eqb t (S_ "_Re") || str_eqb t (S_ "_Im") || known (up_to_bracket t)) with (fun x => skip_token x || known (up_to_bracket x)).
  change (str_eqb (pre ++ head_text n mods) (S_ "_Re") || str_eqb (pre ++ head_text n mods) (S_ "_Im")) with (skip_token (pre ++ head_text n mods)).
  etransitivity; [|exact HK]. match goal with |- context [_ && ?x] => match x with forallb _ (loop [] sfx) => replace x with true by (symmetry; exact S3) end end.
  rewrite andb_true_r. f_equal. rewrite (skip_head n mods) by assumption. cbn [orb].
  destruct Pp as [[-> U] | (q & Nq & -> & Fq & Uq)].
  - cbn [app]. rewrite skip_head by assumption. cbn [orb]. rewrite find_char_none by exact U. reflexivity.
  - rewrite <- app_assoc. cbn [app]. rewrite find_char_after by exact Uq.
    replace (skipn (List.length q + 1) (q ++ "_"%char :: head_text n mods)) with (head_text n mods); [|rewrite skipn_app, skipn_all2 by lia; replace (List.length q + 1 - List.length q) with 1 by lia; reflexivity].
    destruct (skip_token (q ++ "_"%char :: head_text n mods)) eqn:Sk; [|reflexivity]. cbn [orb]. exfalso.
    destruct q as [|a q]; [congruence|]. unfold skip_token in Sk. apply orb_true_iff in Sk as [Sk | Sk]; apply str_eqb_eq in Sk; cbn in Sk; injection Sk as Sk _; apply Uq; subst a; now left.
Qed.
