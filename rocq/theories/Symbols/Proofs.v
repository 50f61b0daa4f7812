From Verif.Descriptor Require Import Spec Proofs.
From Verif.Symbols Require Import Model Spec.

(** * One character at a time *)
Definition sc (c : ascii) : ascii :=
  let r a b c := if Ascii.eqb c a then b else c in
  let c := r "*"%char "s"%char (r "+"%char "p"%char (r "-"%char "m"%char c)) in if negb (isalnum c) then "_"%char else c.
Ltac all_chars c := destruct c as [[] [] [] [] [] [] [] []].

Lemma sc_double c : (let r a b c := if Ascii.eqb c a then b else c in
  let c := r "*"%char "s"%char (r "-"%char "m"%char (r "+"%char "p"%char (r "-"%char "m"%char c))) in if negb (isalnum c) then "_"%char else c) = sc c.
Proof. all_chars c; reflexivity. Qed.
Lemma sc_quote c : (if Ascii.eqb (sc c) "'" then "_"%char else sc c) = sc c.
Proof. all_chars c; reflexivity. Qed.
Definition first_ok (s : str) : str := match s with c :: _ => if isdigit c then "f"%char :: s else s | [] => s end.
Lemma pn_eq s : programatic_name s = first_ok (map sc s).
Proof.
  unfold programatic_name, replace. rewrite !map_map.
  match goal with |- context [map ?f s] => replace (map f s) with (map sc s) by (apply map_ext; intro c; symmetry; exact (sc_double c)) end.
  assert (Q : map (fun c => if Ascii.eqb c "'" then "_"%char else c) (map sc s) = map sc s) by (rewrite map_map; apply map_ext; exact sc_quote).
  unfold first_ok. destruct (map sc s) as [|c r]; [reflexivity|]. destruct (isdigit c); [cbn [map]; cbn [map] in Q; now rewrite Q|exact Q].
Qed.

Definition mem (c : ascii) (l : list ascii) : bool := existsb (Ascii.eqb c) l.
Lemma mem_in c l : mem c l = true -> In c l.
Proof. unfold mem. rewrite existsb_exists. intros (x & I & E). apply Ascii.eqb_eq in E. now subst. Qed.
Lemma sc_good c : mem (sc c) letters = true \/ mem (sc c) digits = true.
Proof. all_chars c; vm_compute; auto. Qed.
Lemma sc_first c : isdigit (sc c) = false -> mem (sc c) letters = true.
Proof. all_chars c; vm_compute; intro H; auto. Qed.
Lemma sc_idem c : sc (sc c) = sc c.
Proof. all_chars c; reflexivity. Qed.
Lemma sc_letter c : In c letters -> c <> "_"%char -> sc c = c /\ isdigit c = false.
Proof.
  intros I N. assert (F : forallb (fun c => Ascii.eqb c "_" || Ascii.eqb (sc c) c && negb (isdigit c)) letters = true) by (vm_compute; reflexivity).
  rewrite forallb_forall in F. specialize (F c I). destruct (Ascii.eqb_spec c "_") as [-> | _]; [now destruct N|]. cbn in F.
  apply andb_prop in F as [A B]. apply Ascii.eqb_eq in A. now destruct (isdigit c).
Qed.

Lemma pn_identifier s : s <> [] -> identifier (programatic_name s).
Proof.
  intro N. rewrite pn_eq. destruct s as [|c r]; [now destruct N|]. cbn [map first_ok].
  assert (T : forall l d, In d (map sc l) -> In d letters \/ In d digits).
  { intros l d I. apply in_map_iff in I as (x & <- & _). destruct (sc_good x) as [H|H]; apply mem_in in H; auto. }
  destruct (isdigit (sc c)) eqn:D.
  - exists "f"%char, (sc c :: map sc r). split; [reflexivity|]. split; [apply mem_in; reflexivity|]. exact (T (c :: r)).
  - exists (sc c), (map sc r). split; [reflexivity|]. split; [now apply mem_in, sc_first|]. apply T.
Qed.
Lemma pn_idem s : programatic_name (programatic_name s) = programatic_name s.
Proof.
  rewrite !pn_eq. destruct s as [|c r]; [reflexivity|]. cbn [map first_ok].
  assert (E : map sc (map sc r) = map sc r) by (rewrite map_map; apply map_ext; exact sc_idem).
  destruct (isdigit (sc c)) eqn:D; cbn [map first_ok]; rewrite E, sc_idem.
  - reflexivity.
  - now rewrite D.
Qed.

(** * Words *)
Notation u_ := "_"%char.
Definition cut_here (r : str) : Prop := r = [] \/ exists r', r = u_ :: r'.
Section Words.
  Variables (name modifier : str -> Prop) (decaying : str -> bool).
  Hypothesis W : words_ok (fun u => name u \/ modifier u).
  Hypothesis Dj : forall u, name u -> modifier u -> False.
  Notation word := (fun u => name u \/ modifier u).

  Lemma word_first u : word u -> exists c r, map sc u = c :: r /\ c <> u_ /\ isdigit c = false.
  Proof. intro H. destruct (proj1 W u H) as (c & r & -> & I & N). destruct (sc_letter c I N) as [E D]. exists c, (map sc r). cbn [map]. now rewrite E. Qed.
  Lemma pn_word u : word u -> programatic_name u = map sc u.
  Proof. intro H. rewrite pn_eq. destruct (word_first u H) as (c & r & -> & _ & D). cbn [first_ok]. now rewrite D. Qed.
  Lemma word_eq u v r r' : word u -> word v -> cut_here r -> cut_here r' -> map sc u ++ r = map sc v ++ r' -> u = v /\ r = r'.
  Proof.
    intros Hu Hv Cr Cr' E. assert (K : u = v -> u = v /\ r = r') by (intros ->; split; [reflexivity|now apply app_inv_head in E]).
    assert (P : forall u v x, word u -> word v -> map sc v ++ [u_] = (map sc u ++ [u_]) ++ x -> u = v).
    { intros a b x Ha Hb Q. apply (proj2 W); [exact Ha|exact Hb|]. exists x. rewrite !pn_word by assumption. exact Q. }
    destruct Cr as [-> | (a & ->)], Cr' as [-> | (b & ->)]; rewrite ?app_nil_r in *.
    - apply K. apply (P u v []); auto. now rewrite E, app_nil_r.
    - apply K. symmetry. apply (P v u (b ++ [u_])); auto. rewrite E, <- !app_assoc. reflexivity.
    - apply K. apply (P u v (a ++ [u_])); auto. rewrite <- E, <- !app_assoc. reflexivity.
    - apply K. assert (S2 : (exists x, map sc v ++ [u_] = (map sc u ++ [u_]) ++ x) \/ exists x, map sc u ++ [u_] = (map sc v ++ [u_]) ++ x).
      { clear -E. revert E. generalize (map sc u) (map sc v). intro p. induction p as [|x p IH]; intros [|y q] E; cbn [app] in *.
        - left. exists []. reflexivity.
        - injection E as <- E. left. exists (q ++ [u_]). reflexivity.
        - injection E as -> E. right. exists (p ++ [u_]). reflexivity.
        - injection E as -> E. destruct (IH q E) as [(z & Z)|(z & Z)]; [left|right]; exists z; now rewrite Z. }
      destruct S2 as [(x & X)|(x & X)]; [now apply (P u v x)|symmetry; now apply (P v u x)].
  Qed.

  (** What follows a particle: the end, or a separator and then another separator, the end, or a name. *)
  Definition follows (r : str) : Prop := r = [] \/ exists r', r = u_ :: r' /\ (cut_here r' \/ exists n t, name n /\ cut_here t /\ r' = map sc n ++ t).
  Lemma follows_cut r : follows r -> cut_here r.
  Proof. intros [-> | (r' & -> & _)]; [now left|right; eauto]. Qed.

  Lemma mods_eq : forall ms ms' r r', ms <> [] -> ms' <> [] -> Forall modifier ms -> Forall modifier ms' -> cut_here r -> cut_here r' ->
    map sc (joined ";" ms) ++ u_ :: r = map sc (joined ";" ms') ++ u_ :: r' -> ms = ms' /\ r = r'.
  Proof.
    induction ms as [|m ms IH]; intros ms' r r' N N' F F' C C' E; [congruence|]. destruct ms' as [|m' ms']; [congruence|].
    inversion F as [|? ? Fm Fr]; subst. inversion F' as [|? ? Fm' Fr']; subst.
    assert (H : forall m ms (x : str), map sc (joined ";" (m :: ms)) ++ u_ :: x = map sc m ++ u_ :: match ms with [] => x | _ => map sc (joined ";" ms) ++ u_ :: x end).
    { intros a [|b l] x; [reflexivity|]. change (joined ";" (a :: b :: l)) with (a ++ ";"%char :: joined ";" (b :: l)). rewrite map_app, <- app_assoc. reflexivity. }
    rewrite !H in E. apply word_eq in E as [<- E]; [|now right|now right|right; eauto|right; eauto]. injection E as E.
    assert (X : forall b l x y, modifier b -> cut_here x -> x = map sc (joined ";" (b :: l)) ++ y -> False).
    { intros b l x y Hb Cx ->. destruct (word_first b (or_intror Hb)) as (c & z & Ez & Nc & _).
      assert (Q : exists z', map sc (joined ";" (b :: l)) ++ y = c :: z') by (destruct l as [|b' l]; [cbn [joined]; rewrite Ez|change (joined ";" (b :: b' :: l)) with (b ++ ";"%char :: joined ";" (b' :: l)); rewrite map_app, Ez]; cbn [app]; eauto).
      destruct Q as (z' & Q). rewrite Q in Cx. destruct Cx as [Z|(? & Z)]; congruence. }
    destruct ms as [|b l], ms' as [|b' l'].
    - now subst.
    - exfalso. inversion Fr' as [|? ? Hb' _]; subst. now apply (X b' l' _ (u_ :: r') Hb' C).
    - exfalso. inversion Fr as [|? ? Hb _]; subst. now apply (X b l _ (u_ :: r) Hb C').
    - apply IH in E as [-> ->]; [auto|discriminate|discriminate|assumption..].
  Qed.
  Lemma head_eq n ms n' ms' r r' : name n -> name n' -> Forall modifier ms -> Forall modifier ms' -> follows r -> follows r' ->
    map sc (head_text n ms) ++ r = map sc (head_text n' ms') ++ r' -> n = n' /\ ms = ms' /\ r = r'.
  Proof.
    intros Hn Hn' F F' C C' E.
    assert (H : forall n ms (x : str), map sc (head_text n ms) ++ x = map sc n ++ match ms with [] => x | _ => u_ :: map sc (joined ";" ms) ++ u_ :: x end).
    { intros a [|b l] x; [reflexivity|]. cbn [head_text]. rewrite map_app. cbn [map]. rewrite map_app, <- !app_assoc. cbn [app]. rewrite <- !app_assoc. reflexivity. }
    rewrite !H in E. apply word_eq in E as [<- E]; [|now left|now left|destruct ms; [now apply follows_cut|right; eauto]|destruct ms'; [now apply follows_cut|right; eauto]].
    split; [reflexivity|].
    assert (X : forall b l x (y : str), modifier b -> follows x -> x = u_ :: map sc (joined ";" (b :: l)) ++ u_ :: y -> False).
    { intros b l x y Hb [-> | (x' & -> & Cx)] Q; [discriminate|]. assert (Q' : x' = map sc (joined ";" (b :: l)) ++ u_ :: y) by congruence. clear Q. subst x'.
      assert (Z : exists z, cut_here z /\ map sc (joined ";" (b :: l)) ++ u_ :: y = map sc b ++ z).
      { destruct l as [|b' l]; [exists (u_ :: y); split; [right; eauto|reflexivity]|]. change (joined ";" (b :: b' :: l)) with (b ++ ";"%char :: joined ";" (b' :: l)). rewrite map_app, <- app_assoc.
        eexists. split; [|reflexivity]. right. cbn [map app]. eauto. }
      destruct Z as (z & Cz & Z). rewrite Z in Cx. destruct Cx as [Cx|(n' & t & Hn'' & Ct & Q)].
      - destruct (word_first b (or_intror Hb)) as (c & w & Ew & Nc & _). rewrite Ew in Cx. destruct Cx as [Q|(? & Q)]; cbn in Q; congruence.
      - apply word_eq in Q as [-> _]; [|now right|now left|exact Cz|exact Ct]. exact (Dj _ Hn'' Hb). }
    destruct ms as [|b l], ms' as [|b' l'].
    - auto.
    - exfalso. inversion F' as [|? ? Hb' _]; subst. exact (X b' l' _ _ Hb' C eq_refl).
    - exfalso. inversion F as [|? ? Hb _]; subst. exact (X b l _ _ Hb C' eq_refl).
    - assert (E2 : map sc (joined ";" (b :: l)) ++ u_ :: r = map sc (joined ";" (b' :: l')) ++ u_ :: r') by congruence. clear E. rename E2 into E. apply mods_eq in E as [-> ->]; [auto|discriminate|discriminate|assumption|assumption|now apply follows_cut|now apply follows_cut].
  Qed.

  Lemma text_first t r : made_of name modifier decaying t -> cut_here r -> exists n x, name n /\ cut_here x /\ map sc (text t) ++ r = map sc n ++ x.
  Proof.
    intros H C. inversion H as [n ms ds Hn Hm Hd Hs]; subst. exists n. 
    assert (A : forall y, cut_here y -> exists x, cut_here x /\ map sc (head_text n ms) ++ y = map sc n ++ x).
    { intros y Cy. destruct ms as [|b l]; [exists y; auto|]. cbn [head_text]. rewrite map_app, <- app_assoc. eexists. split; [|reflexivity]. right. cbn [map app]. eauto. }
    cbn [text]. destruct ds as [|d ds]; [destruct (A r C) as (x & Cx & E); eauto|].
    rewrite map_app, <- app_assoc. destruct (A (map sc ("{"%char :: joined "," (map text (d :: ds)) ++ ["}"%char]) ++ r)) as (x & Cx & E); [right; cbn [map app]; eauto|]. eauto.
  Qed.
  Lemma text_eq : forall t t' r r', made_of name modifier decaying t -> made_of name modifier decaying t' -> follows r -> follows r' ->
    map sc (text t) ++ r = map sc (text t') ++ r' -> t = t' /\ r = r'.
  Proof.
    induction t as [n ms ds IH] using tree_ind'. intros [n' ms' ds'] r r' H H' C C' E. inversion H as [? ? ? Hn Hm Hd Hs]; subst. inversion H' as [? ? ? Hn' Hm' Hd' Hs']; subst.
    set (tail := fun (ds : list tree) (r : str) => match ds with [] => r | _ => u_ :: map sc (joined "," (map text ds)) ++ u_ :: r end).
    assert (T : forall n ms ds r, map sc (text (Tree n ms ds)) ++ r = map sc (head_text n ms) ++ tail ds r).
    { intros a l [|d e] x; [reflexivity|]. cbn [text]. rewrite map_app, <- app_assoc. f_equal. cbn [map app]. rewrite map_app, <- app_assoc. reflexivity. }
    assert (J : forall d ds (x : str), map sc (joined "," (map text (d :: ds))) ++ u_ :: x = map sc (text d) ++ u_ :: match ds with [] => x | _ => map sc (joined "," (map text ds)) ++ u_ :: x end).
    { intros a [|b l] x; [reflexivity|]. change (joined "," (map text (a :: b :: l))) with (text a ++ ","%char :: joined "," (map text (b :: l))). rewrite map_app, <- app_assoc. reflexivity. }
    assert (M : forall d ds (x : str), made_of name modifier decaying d -> exists n t, name n /\ cut_here t /\ map sc (joined "," (map text (d :: ds))) ++ u_ :: x = map sc n ++ t).
    { intros a l x Ha. rewrite J. apply text_first; [exact Ha|right; eauto]. }
    assert (P : forall ds r, Forall (made_of name modifier decaying) ds -> follows r -> follows (tail ds r)).
    { intros [|d l] x Fl Cx; [exact Cx|]. right. cbn [tail]. eexists. split; [reflexivity|]. right. inversion Fl as [|? ? Hd0 _]; subst. now apply M. }
    rewrite !T in E. apply head_eq in E as (<- & <- & E); [|assumption|assumption|assumption|assumption|now apply P|now apply P].
    assert (L : forall ds', ds <> [] -> ds' <> [] -> Forall (made_of name modifier decaying) ds' -> 
      forall r r', cut_here r -> cut_here r' -> map sc (joined "," (map text ds)) ++ u_ :: r = map sc (joined "," (map text ds')) ++ u_ :: r' -> ds = ds' /\ r = r').
    { clear -IH Hs J M W Dj. induction ds as [|d ds IHd]; intros [|d' ds'] N N' Fs' r r' C C' E; [congruence..|].
      inversion IH as [|? ? I1 I2]; subst. inversion Hs as [|? ? H1 H2]; subst. inversion Fs' as [|? ? F1 F2]; subst. rewrite !J in E.
      assert (Fo : forall l x, Forall (made_of name modifier decaying) l -> cut_here x -> follows (u_ :: match l with [] => x | _ => map sc (joined "," (map text l)) ++ u_ :: x end)).
      { intros [|b l] x Fl Cx; right; eexists; (split; [reflexivity|]); [now left|]. right. inversion Fl; subst. now apply M. }
      apply I1 in E as [<- E]; [|assumption|assumption|now apply Fo|now apply Fo]. injection E as E.
      assert (X : forall b l x (y : str), made_of name modifier decaying b -> cut_here x -> x = map sc (joined "," (map text (b :: l))) ++ u_ :: y -> False).
      { intros b l x y Hb Cx Q. destruct (M b l y Hb) as (nn & t & Hnn & _ & Q'). rewrite Q' in Q. subst x. destruct (word_first nn (or_introl Hnn)) as (c & z & Ez & Nc & _). rewrite Ez in Cx. destruct Cx as [Z|(? & Z)]; cbn in Z; congruence. }
      destruct ds as [|b l], ds' as [|b' l'].
      - now subst.
      - exfalso. inversion F2; subst. eapply (X b' l'); [eassumption|exact C|exact eq_refl].
      - exfalso. inversion H2; subst. eapply (X b l); [eassumption|exact C'|exact eq_refl].
      - apply IHd in E as [<- <-]; [auto|assumption|assumption|discriminate|discriminate|assumption..]. }
    destruct ds as [|d ds], ds' as [|d' ds']; cbn [tail] in E.
    - auto.
    - exfalso. apply proj2 in Hd. apply proj1 in Hd'. specialize (Hd' (Hd eq_refl)). discriminate.
    - exfalso. apply proj2 in Hd'. apply proj1 in Hd. specialize (Hd (Hd' eq_refl)). discriminate.
    - assert (E2 : map sc (joined "," (map text (d :: ds))) ++ u_ :: r = map sc (joined "," (map text (d' :: ds'))) ++ u_ :: r') by congruence. clear E. rename E2 into E. apply L in E as [<- <-]; [auto|discriminate|discriminate|assumption|now apply follows_cut|now apply follows_cut].
  Qed.
  Lemma pn_text t : made_of name modifier decaying t -> programatic_name (text t) = map sc (text t).
  Proof.
    intro H. rewrite pn_eq. destruct (text_first t [] H (or_introl eq_refl)) as (n & x & Hn & _ & E). rewrite app_nil_r in E. rewrite E.
    destruct (word_first n (or_introl Hn)) as (c & r & -> & _ & D). cbn [app first_ok]. now rewrite D.
  Qed.
  Lemma distinct t t' : made_of name modifier decaying t -> made_of name modifier decaying t' -> programatic_name (text t) = programatic_name (text t') -> t = t'.
  Proof. intros H H' E. rewrite !pn_text in E by assumption. apply (text_eq t t' [] []); [assumption|assumption|now left|now left|now rewrite !app_nil_r]. Qed.
  Lemma distinct_pairs a b a' b' : made_of name modifier decaying a -> made_of name modifier decaying b -> made_of name modifier decaying a' -> made_of name modifier decaying b' ->
    interference (text a) (text b) = interference (text a') (text b') -> a = a' /\ b = b'.
  Proof.
    intros Ha Hb Ha' Hb' E. unfold interference in E. rewrite !pn_text in E by assumption. change (S_ "_") with [u_] in E. cbn [app] in E.
    assert (F : forall t, made_of name modifier decaying t -> follows (u_ :: map sc (text t))).
    { intros t Ht. right. eexists. split; [reflexivity|]. right. destruct (text_first t [] Ht (or_introl eq_refl)) as (n & x & Hn & Cx & Q). rewrite app_nil_r in Q. eauto. }
    apply text_eq in E as [<- E]; [|assumption|assumption|now apply F|now apply F]. injection E as E. split; [reflexivity|]. apply (text_eq b b' [] []); [assumption|assumption|now left|now left|now rewrite !app_nil_r].
  Qed.
End Words.
