(** Proofs about particle entries and the table. *)
From Verif.Events Require Import Model Format.
From Verif.Utilities Require Import Model Spec Proofs Proofs2.
From Verif.Quarks Require Import Model Spec Proofs.
From Verif.Species Require Import Model Spec.
Notation to_string := Verif.Events.Model.to_string.

(** *** Conjugation *)
Lemma swapChars_nth s i : nth_error (swapChars s "+" "-") i = option_map (fun c => if Ascii.eqb c "+" then "-"%char else if Ascii.eqb c "-" then "+"%char else c) (nth_error s i).
Proof. unfold swapChars. revert i. induction s as [|c s IH]; intros [|i]; cbn; auto. Qed.

Lemma conjugates_anti e : conjugates e (anti_entry e).
Proof.
  constructor; unfold anti_entry; cbn; try lia; auto 10.
  - split; [unfold swapChars; rewrite map_length; reflexivity|intros i; apply swapChars_nth].
  - unfold anti. induction (quarkContent e) as [|x l IH]; cbn [map]; constructor; auto. intros _ k. apply qanti_num.
Qed.

Lemma swap_twice s : swapChars (swapChars s "+" "-") "+" "-" = s.
Proof. unfold swapChars. rewrite map_map. rewrite <- (map_id s) at 2. apply map_ext. intros c. destruct (Ascii.eqb_spec c "+"); subst; auto. destruct (Ascii.eqb_spec c "-"); subst; auto.
  destruct (Ascii.eqb_spec c "+"); [congruence|]. destruct (Ascii.eqb_spec c "-"); congruence. Qed.

Lemma anti_twice e : Forall flavours (quarkContent e) -> anti_entry (anti_entry e) = e.
Proof.
  intros F. destruct e as [nm id ts p ch cs af q lb cu r]. unfold anti_entry, is_fermion. cbn [ename eid twoSpin parity charge chargeString aformat quarkContent label customName rest] in *.
  f_equal; try lia; [destruct (Z.eqb _ _); lia|apply swap_twice|apply anti_anti; auto].
Qed.

Lemma charge_swap s : charge_from_string (swapChars s "+" "-") = (- charge_from_string s)%Z.
Proof.
  destruct s as [|a [|b [|c s]]].
  - reflexivity.
  - unfold charge_from_string. destruct a as [[] [] [] [] [] [] [] []]; reflexivity.
  - destruct (Ascii.eqb_spec a "+") as [-> |A1]; [|destruct (Ascii.eqb_spec a "-") as [-> |A2]].
    + destruct b as [[] [] [] [] [] [] [] []]; reflexivity.
    + destruct b as [[] [] [] [] [] [] [] []]; reflexivity.
    + assert (H : forall x, charge_from_string [a; x] = 0%Z).
      { intros x. unfold charge_from_string, S_. cbn [list_ascii_of_string str_eqb]. destruct (Ascii.eqb_spec a "+"); [congruence|]. destruct (Ascii.eqb_spec a "-"); [congruence|].
        rewrite !andb_false_r. reflexivity. }
      rewrite H. cbn [swapChars map]. destruct (Ascii.eqb_spec a "+"); [congruence|]. destruct (Ascii.eqb_spec a "-"); [congruence|]. apply H.
  - unfold charge_from_string, S_. cbn [swapChars map list_ascii_of_string str_eqb]. rewrite !andb_false_r. reflexivity.
Qed.

(** *** Names *)
Lemma swap_eq s : swapChars s "+" "-" = s <-> ~ In "+"%char s /\ ~ In "-"%char s.
Proof.
  unfold swapChars. induction s as [|c s IH]; cbn [map In]; [split; auto|]. split.
  - intros H. assert (Hc : (if Ascii.eqb c "+" then "-"%char else if Ascii.eqb c "-" then "+"%char else c) = c) by congruence.
    assert (Hs : map (fun c => if Ascii.eqb c "+" then "-"%char else if Ascii.eqb c "-" then "+"%char else c) s = s) by congruence.
    apply IH in Hs as [N1 N2]. destruct (Ascii.eqb_spec c "+") as [-> |A1]; [discriminate|]. destruct (Ascii.eqb_spec c "-") as [-> |A2]; [discriminate|]. tauto.
  - intros [N1 N2]. destruct (Ascii.eqb_spec c "+") as [-> |A1]; [tauto|]. destruct (Ascii.eqb_spec c "-") as [-> |A2]; [tauto|]. f_equal. apply IH. tauto.
Qed.

(** *** Lines *)
Lemma parse_total line : exists o, parse_line line = Ok o /\ forall P, o = Some P -> aformat P <> None /\ contents (quarkContent P) /\ charge P = charge_from_string (chargeString P) /\ customName P = false.
Proof.
  unfold parse_line. destruct line as [|c line]; [eexists; split; [reflexivity|discriminate]|].
  destruct (Ascii.eqb c "*"); [eexists; split; [reflexivity|discriminate]|].
  set (fs := map trim _). clearbody fs.
  do 18 (destruct fs as [|? fs]; [eexists; split; [reflexivity|discriminate]|]).
  destruct fs as [|? fs]; [|eexists; split; [reflexivity|discriminate]].
  set (f17 := s16) in *. clearbody f17.
  assert (R : exists a, read_content (S (List.length f17)) f17 = Ok a /\ contents a).
  { unfold read_content. destruct (contains _ f17); [eexists; split; [reflexivity|split; [discriminate|repeat constructor]]|].
    destruct (replaceAll_terminates (S_ "sqrt") [] f17 ltac:(discriminate) ltac:(cbn; lia) (S (List.length f17)) ltac:(lia)) as [r Er]. rewrite Er. cbn [bind].
    eexists. split; [reflexivity|]. set (l := map read_state _).
    assert (Fl : Forall flavours l). { apply Forall_forall. intros q Hq. apply in_map_iff in Hq as (t & <- & _). apply (read_state_num t 0). }
    destruct (filter _ l) as [|q qs] eqn:E; [split; [discriminate|repeat constructor]|]. split; [discriminate|]. rewrite <- E.
    apply Forall_forall. intros x Hx. apply filter_In in Hx as [Hx _]. rewrite Forall_forall in Fl. auto. }
  destruct R as (a & Ea & Ca). rewrite Ea. cbn [bind]. eexists. split; [reflexivity|]. intros P E. injection E as <-. cbn. repeat split; auto; try discriminate; apply Ca.
Qed.

Lemma described_ok lines P : In P (described lines) -> aformat P <> None /\ contents (quarkContent P) /\ charge P = charge_from_string (chargeString P) /\ customName P = false.
Proof.
  unfold described. intros H. apply in_flat_map in H as (l & _ & H). destruct (parse_total l) as (o & E & K). rewrite E in H. destruct o as [Q|]; [|destruct H].
  destruct H as [<- | []]. apply K. reflexivity.
Qed.

(** The entries of one description: itself with a label, and its conjugate. *)
Definition pair_of (labels : list (Z * (str * str))) (P : entry) : list entry :=
  let lb := find_label labels (eid P) in
  let P1 := match lb with Some (a, _) => set_label a P | None => P end in
  match aformat P with
  | Some c => if Ascii.eqb c " " then [P1] else [P1; match lb with Some (_, b) => set_label b (anti_entry P1) | None => anti_entry P1 end]
  | None => []
  end.

Lemma entries_of_ok labels P : aformat P <> None -> entries_of labels P = Ok (pair_of labels P).
Proof.
  intros A. unfold entries_of, pair_of. set (P1 := match find_label labels (eid P) with Some (a, _) => set_label a P | None => P end).
  assert (E : aformat P1 = aformat P) by (unfold P1; destruct (find_label labels (eid P)) as [[]|]; reflexivity).
  unfold has_distinct_anti, antiThis, has_distinct_anti. rewrite E. destruct (aformat P) as [c|] eqn:Q; [|congruence]. cbn [bind].
  destruct (Ascii.eqb c " "); cbn [negb bind]; reflexivity.
Qed.

Lemma read_lines_ok labels lines : read_lines labels lines = Ok (flat_map (pair_of labels) (described lines)).
Proof.
  induction lines as [|l lines IH]; [reflexivity|]. cbn [read_lines]. destruct (parse_total l) as (o & E & K).
  unfold described. cbn [flat_map]. rewrite E. cbn [bind]. destruct o as [P|].
  - rewrite entries_of_ok by (apply K; auto). cbn [bind app flat_map]. rewrite IH. reflexivity.
  - cbn [bind app]. rewrite IH. reflexivity.
Qed.

(** *** The table *)
Lemma lookup_in {K V} eqb (Heq : forall a b : K, eqb a b = true <-> a = b) k (m : list (K * V)) v : lookup eqb k m = Some v -> In (k, v) m.
Proof.
  induction m as [|[k' v'] m IH]; cbn [lookup]; [discriminate|]. destruct (eqb k k') eqn:E.
  - intros H. injection H as ->. apply Heq in E. subst. left. auto.
  - intros H. right. auto.
Qed.
Lemma lookup_exists {K V} eqb (Heq : forall a b : K, eqb a b = true <-> a = b) k (m : list (K * V)) v : In (k, v) m -> exists v', lookup eqb k m = Some v'.
Proof.
  induction m as [|[k' v'] m IH]; cbn [lookup]; [intros []|]. destruct (eqb k k') eqn:E; [eauto|]. intros [H|H]; auto.
  injection H as -> ->. assert (T : eqb k k = true) by (apply Heq; auto). congruence.
Qed.

Definition named (e : entry) : Prop := aformat e <> None.
Lemma full_name_ok e : named e -> exists n, full_name e = Ok n.
Proof. unfold full_name, named. intros H. destruct (customName e); [eauto|]. destruct (Z.ltb _ _); [|eauto]. destruct (aformat e); [eauto|congruence]. Qed.

Lemma make_mappings_ok es : Forall named es -> forall i t, exists t', make_mappings i es t = Ok t' /\ heap t' = heap t
  /\ (forall id j, In (id, j) (byID t') <-> In (id, j) (byID t) \/ exists k e, nth_error es k = Some e /\ eid e = id /\ j = i + k)
  /\ (forall n j, In (n, j) (byName t') <-> In (n, j) (byName t) \/ exists k e, nth_error es k = Some e /\ full_name e = Ok n /\ j = i + k).
Proof.
  induction 1 as [|e es N F IH]; intros i t; cbn [make_mappings].
  - exists t. split; auto. split; auto. split; intros; (split; [auto|]); intros [H|(k & e & H & _)]; auto; destruct k; discriminate.
  - destruct (full_name_ok e N) as [n En]. rewrite En. cbn [bind]. destruct (IH (S i) (Table (heap t) ((n, i) :: byName t) ((eid e, i) :: byID t))) as (t' & Et & H1 & H2 & H3).
    exists t'. split; auto. split; auto. cbn [byID byName heap In] in *. split.
    + intros id j. rewrite H2. split.
      * intros [[H|H]|(k & e' & K1 & K2 & K3)]; auto.
        -- injection H as <- <-. right. exists 0, e. cbn. repeat split; auto.
        -- right. exists (S k), e'. cbn. repeat split; auto. lia.
      * intros [H|([|k] & e' & K1 & K2 & K3)]; auto.
        -- cbn in K1. injection K1 as <-. left. left. f_equal; auto. lia.
        -- right. exists k, e'. repeat split; auto. lia.
    + intros m j. rewrite H3. split.
      * intros [[H|H]|(k & e' & K1 & K2 & K3)]; auto.
        -- injection H as <- <-. right. exists 0, e. cbn. repeat split; auto.
        -- right. exists (S k), e'. cbn. repeat split; auto. lia.
      * intros [H|([|k] & e' & K1 & K2 & K3)]; auto.
        -- cbn in K1. injection K1 as <-. left. left. assert (n = m) by congruence. f_equal; auto. lia.
        -- right. exists k, e'. repeat split; auto. lia.
Qed.

Lemma table_ok es : Forall named es -> exists t, make_table es = Ok t
  /\ (forall n e, find_name t n = Some e -> In e es /\ full_name e = Ok n)
  /\ (forall e n, In e es -> full_name e = Ok n -> exists e', find_name t n = Some e')
  /\ (forall id e, find_id t id = Some e -> In e es /\ eid e = id)
  /\ (forall e, In e es -> exists e', find_id t (eid e) = Some e').
Proof.
  intros F. unfold make_table. destruct (make_mappings_ok es F 0 (Table es [] [])) as (t & Et & H1 & H2 & H3). cbn [heap byID byName] in *.
  exists t. split; auto. unfold find_name, find_id. rewrite H1. split; [|split; [|split]].
  - intros n e H. destruct (lookup str_eqb n (byName t)) as [j|] eqn:L; [|discriminate]. apply (lookup_in _ str_eqb_eq) in L. apply H3 in L as [[]|(k & e' & K1 & K2 & K3)].
    cbn in K3. subst j. assert (e' = e) by congruence. subst. split; auto. eapply nth_error_In; eauto.
  - intros e n He En. apply In_nth_error in He as [k Hk].
    assert (L : In (n, k) (byName t)) by (apply H3; right; exists k, e; auto).
    destruct (lookup_exists _ str_eqb_eq _ _ _ L) as [j Lj]. rewrite Lj. apply (lookup_in _ str_eqb_eq) in Lj. apply H3 in Lj as [[]|(k' & e' & K1 & K2 & K3)].
    cbn in K3. subst j. eauto.
  - intros n e H. destruct (lookup Z.eqb n (byID t)) as [j|] eqn:L; [|discriminate]. apply (lookup_in _ Z.eqb_eq) in L. apply H2 in L as [[]|(k & e' & K1 & K2 & K3)].
    cbn in K3. subst j. assert (e' = e) by congruence. subst. split; auto. eapply nth_error_In; eauto.
  - intros e He. apply In_nth_error in He as [k Hk].
    assert (L : In (eid e, k) (byID t)) by (apply H2; right; exists k, e; auto).
    destruct (lookup_exists _ Z.eqb_eq _ _ _ L) as [j Lj]. rewrite Lj. apply (lookup_in _ Z.eqb_eq) in Lj. apply H2 in Lj as [[]|(k' & e' & K1 & K2 & K3)].
    cbn in K3. subst j. eauto.
Qed.

Lemma pair_named labels P e : In e (pair_of labels P) -> named e.
Proof.
  unfold pair_of, named. destruct (aformat P) as [c|] eqn:Q; [|intros []]. destruct (find_label labels (eid P)) as [[a b]|]; destruct (Ascii.eqb c " "); cbn;
  intros H; repeat (destruct H as [<- |H]; [cbn; congruence|]); destruct H.
Qed.

(** Members of a pair: with the id of the description, or its conjugate. *)
Lemma pair_cases labels P e : In e (pair_of labels P) -> aformat e = aformat P /\
  ((eid e = eid P /\ exists a, e = set_label a P) \/ (exists c, aformat P = Some c /\ c <> " "%char) /\ eid e = (- eid P)%Z /\ exists b, e = set_label b (anti_entry P)).
Proof.
  unfold pair_of. destruct (aformat P) as [c|] eqn:Q; [|intros []].
  assert (Self : P = set_label (label P) P) by (destruct P; reflexivity).
  assert (SelfA : anti_entry P = set_label (label P) (anti_entry P)) by (destruct P; reflexivity).
  assert (Lab : forall a b, set_label b (anti_entry (set_label a P)) = set_label b (anti_entry P)) by (intros; destruct P; reflexivity).
  destruct (find_label labels (eid P)) as [[a b]|]; destruct (Ascii.eqb_spec c " ") as [-> |C]; cbn [In]; intros H.
  - destruct H as [<- | []]. split; auto. left. split; auto. eauto.
  - destruct H as [<- | [<- | []]]; (split; [auto|]); [left; split; auto; eauto|]. right. split; [eauto|]. split; [cbn [eid set_label anti_entry]; lia|]. exists b. apply Lab.
  - destruct H as [<- | []]. split; auto. left. split; auto. eauto.
  - destruct H as [<- | [<- | []]]; (split; [auto|]); [left; split; auto; eauto|]. right. split; [eauto|]. split; [cbn [eid anti_entry]; lia|]. eauto.
Qed.

Lemma pair_both labels P c : aformat P = Some c -> c <> " "%char -> exists e e', pair_of labels P = [e; e'] /\ eid e = eid P /\ eid e' = (- eid P)%Z.
Proof.
  intros A C. unfold pair_of. rewrite A. destruct (Ascii.eqb_spec c " "); [congruence|]. destruct (find_label labels (eid P)) as [[a b]|];
  (eexists; eexists; split; [reflexivity|]); cbn [eid set_label anti_entry]; (split; [auto|lia]).
Qed.

(** Ids determine the entries. *)
Lemma ids_unique labels Ps : NoDup (map (fun P => Z.abs (eid P)) Ps) -> Forall (fun P => eid P <> 0%Z) Ps ->
  forall e e', In e (flat_map (pair_of labels) Ps) -> In e' (flat_map (pair_of labels) Ps) -> eid e = eid e' -> e = e'.
Proof.
  intros ND NZ e e' H H' E. apply in_flat_map in H as (P & HP & H). apply in_flat_map in H' as (P' & HP' & H').
  rewrite Forall_forall in NZ. pose proof (NZ P HP) as Z1. pose proof (NZ P' HP') as Z2.
  assert (EP : P = P').
  { assert (EA : Z.abs (eid P) = Z.abs (eid P')).
    { apply pair_cases in H as [_ [[A _]|(_ & A & _)]]; apply pair_cases in H' as [_ [[B _]|(_ & B & _)]]; lia. }
    clear - ND HP HP' EA. induction Ps as [|Q Ps IH]; [destruct HP|]. cbn [map] in ND. inversion ND as [|? ? N1 N2]; subst. destruct HP as [-> |HP]; destruct HP' as [-> |HP']; auto.
    - exfalso. apply N1. rewrite EA. apply (in_map (fun P => Z.abs (eid P))). auto.
    - exfalso. apply N1. rewrite <- EA. apply (in_map (fun P => Z.abs (eid P))). auto. }
  subst P'. destruct (aformat P) as [c|] eqn:A.
  - destruct (Ascii.eqb_spec c " ") as [-> |C].
    + unfold pair_of in H, H'. rewrite A in H, H'. cbn in H, H'. destruct H as [<- | []]. destruct H' as [<- | []]. auto.
    + destruct (pair_both labels P c A C) as (x & y & Ep & Ex & Ey). rewrite Ep in H, H'. cbn in H, H'.
      destruct H as [<- | [<- | []]]; destruct H' as [<- | [<- | []]]; auto; exfalso; lia.
  - unfold pair_of in H. rewrite A in H. destruct H.
Qed.

Lemma conjugates_label a b e : conjugates (set_label a e) (set_label b (anti_entry e)).
Proof. destruct (conjugates_anti e) as [A B C D E F]. constructor; cbn in *; auto. Qed.

Lemma conjugates_label' a b e : Forall flavours (quarkContent e) -> conjugates (set_label a (anti_entry e)) (set_label b e).
Proof.
  intros F. pose proof (conjugates_label a b (anti_entry e)) as H. rewrite anti_twice in H by auto. exact H.
Qed.

Lemma table_conj labels lines : identified lines -> exists es t, read_lines labels lines = Ok es /\ make_table es = Ok t
  /\ (forall e, In e es -> find_id t (eid e) = Some e)
  /\ forall e, In e es -> exists e', conj_entry t e = Ok e' /\ In e' es /\ conj_entry t e' = Ok e /\ (aformat e = Some " "%char /\ e' = e \/ aformat e <> Some " "%char /\ conjugates e e').
Proof.
  intros [ND NZ]. exists (flat_map (pair_of labels) (described lines)).
  assert (Nm : Forall named (flat_map (pair_of labels) (described lines))).
  { apply Forall_forall. intros e He. apply in_flat_map in He as (P & _ & He). apply (pair_named labels P e He). }
  destruct (table_ok _ Nm) as (t & Et & _ & _ & T3 & T4). exists t. split; [apply read_lines_ok|]. split; [exact Et|].
  assert (Id : forall e, In e (flat_map (pair_of labels) (described lines)) -> find_id t (eid e) = Some e).
  { intros e He. destruct (T4 e He) as (e' & Fe'). destruct (T3 _ _ Fe') as [He' Ee']. rewrite Fe'. f_equal. symmetry. apply (ids_unique labels (described lines)); auto. }
  split; [exact Id|]. intros e He. pose proof He as He0. apply in_flat_map in He0 as (P & HP & HeP).
  destruct (described_ok lines P HP) as (AP & [_ CP] & _ & _). pose proof (pair_cases labels P e HeP) as [Ae Cs].
  destruct (aformat P) as [c|] eqn:A; [|congruence]. destruct (Ascii.eqb_spec c " ") as [-> |C].
  - assert (Ce : conj_entry t e = Ok e) by (unfold conj_entry, has_distinct_anti; rewrite Ae; reflexivity). exists e. split; auto.
  - destruct (pair_both labels P c A C) as (x & y & Ep & Ex & Ey).
    assert (Hx : In x (flat_map (pair_of labels) (described lines))) by (apply in_flat_map; exists P; rewrite Ep; split; [auto|left; auto]).
    assert (Hy : In y (flat_map (pair_of labels) (described lines))) by (apply in_flat_map; exists P; rewrite Ep; split; [auto|right; left; auto]).
    assert (Ix : In x (pair_of labels P)) by (rewrite Ep; left; auto). assert (Iy : In y (pair_of labels P)) by (rewrite Ep; right; left; auto).
    pose proof (pair_cases labels P x Ix) as [Ax [[_ (a & Xa)]|(_ & Bad & _)]]; [|rewrite Forall_forall in NZ; specialize (NZ P HP); lia].
    pose proof (pair_cases labels P y Iy) as [Ay [[Bad _]|(_ & _ & (b & Yb))]]; [rewrite Forall_forall in NZ; specialize (NZ P HP); lia|].
    assert (Cx : conj_entry t x = Ok y).
    { unfold conj_entry, has_distinct_anti. rewrite Ax, A. cbn [bind]. destruct (Ascii.eqb_spec c " "); [congruence|]. cbn [negb].
      replace (-1 * eid x)%Z with (eid y) by lia. rewrite (Id y Hy). reflexivity. }
    assert (Cy : conj_entry t y = Ok x).
    { unfold conj_entry, has_distinct_anti. rewrite Ay, A. cbn [bind]. destruct (Ascii.eqb_spec c " "); [congruence|]. cbn [negb].
      replace (-1 * eid y)%Z with (eid x) by lia. rewrite (Id x Hx). reflexivity. }
    rewrite Ep in HeP. destruct HeP as [<- | [<- | []]].
    + exists y. split; auto. split; auto. split; auto. right. split; [rewrite Ae; congruence|]. subst x y. apply conjugates_label.
    + exists x. split; auto. split; auto. split; auto. right. split; [rewrite Ae; congruence|]. subst x y. apply conjugates_label'; auto.
Qed.

(** *** Orders *)
Lemma str_ltb_irrefl a : str_ltb a a = false.
Proof. induction a as [|c a IH]; cbn [str_ltb]; auto. rewrite Nat.ltb_irrefl. auto. Qed.
Lemma str_ltb_trans a : forall b c, str_ltb a b = true -> str_ltb b c = true -> str_ltb a c = true.
Proof.
  induction a as [|x a IH]; intros [|y b] [|z c]; cbn [str_ltb]; try discriminate; auto.
  destruct (Nat.ltb_spec (nat_of_ascii x) (nat_of_ascii y)); destruct (Nat.ltb_spec (nat_of_ascii y) (nat_of_ascii x)); destruct (Nat.ltb_spec (nat_of_ascii y) (nat_of_ascii z));
  destruct (Nat.ltb_spec (nat_of_ascii z) (nat_of_ascii y)); destruct (Nat.ltb_spec (nat_of_ascii x) (nat_of_ascii z)); destruct (Nat.ltb_spec (nat_of_ascii z) (nat_of_ascii x)); try lia; try discriminate; auto; apply IH.
Qed.
Lemma str_ltb_total a : forall b, str_ltb a b = false -> str_ltb b a = false -> a = b.
Proof.
  induction a as [|x a IH]; intros [|y b]; cbn [str_ltb]; try discriminate; auto.
  destruct (Nat.ltb_spec (nat_of_ascii x) (nat_of_ascii y)); destruct (Nat.ltb_spec (nat_of_ascii y) (nat_of_ascii x)); try discriminate.
  intros H1 H2. f_equal; auto. rewrite <- (ascii_nat_embedding x), <- (ascii_nat_embedding y). f_equal. lia.
Qed.

(** *** Numbers as text *)
Lemma digit_of n : n < 10 -> digit (ascii_of_nat (48 + n)) = Some (Z.of_nat n).
Proof. intros H. unfold digit. rewrite nat_ascii_embedding by lia. replace (Nat.leb 48 (48 + n) && Nat.leb (48 + n) 57) with true; [do 2 f_equal; lia|]. symmetry. apply andb_true_iff. split; apply Nat.leb_le; lia. Qed.

Lemma strtol_digits_app f : forall n t, n < f -> strtol_digits 0 (digits f n ++ t) = strtol_digits (Z.of_nat n) t.
Proof.
  induction f as [|f IH]; intros n t H; [lia|]. cbn [digits]. rewrite <- app_assoc. cbn [app].
  assert (M : n mod 10 < 10) by (apply Nat.mod_upper_bound; lia).
  destruct (Nat.ltb_spec n 10) as [L|L].
  - cbn [app strtol_digits]. rewrite digit_of by auto. rewrite Nat.mod_small by auto. f_equal.
  - rewrite IH by (apply Nat.lt_le_trans with n; [apply Nat.div_lt; lia|lia]). cbn [strtol_digits]. rewrite digit_of by auto. f_equal.
    pose proof (Nat.div_mod n 10 ltac:(lia)) as D. lia.
Qed.

Lemma to_string_cons n : exists c t, to_string n = c :: t /\ is_digit c = true.
Proof.
  unfold to_string. pose proof (digits_digit (S n) n) as F. destruct (digits (S n) n) as [|c t] eqn:E.
  - cbn [digits] in E. destruct (n <? 10); destruct (digits n (n / 10)); discriminate.
  - exists c, t. split; auto. apply (Forall_inv F).
Qed.

Lemma digit_plain c : is_digit c = true -> isspace c = false /\ Ascii.eqb c "-" = false /\ Ascii.eqb c "+" = false /\ Ascii.eqb c "/" = false /\ Ascii.eqb c "?" = false.
Proof. destruct c as [[] [] [] [] [] [] [] []]; cbn; intros; try discriminate; auto 10. Qed.

Lemma strtol_to_string n t : (forall c u, t = c :: u -> digit c = None) -> strtol (to_string n ++ t) = Z.of_nat n.
Proof.
  intros T. destruct (to_string_cons n) as (c & u & E & D). destruct (digit_plain c D) as (W & M & P & _). unfold strtol.
  assert (L : ltrim (to_string n ++ t) = to_string n ++ t) by (rewrite E; cbn [app ltrim]; rewrite W; reflexivity).
  rewrite L. rewrite E at 1. cbn [app]. rewrite M, P. change (c :: u ++ t) with ((c :: u) ++ t). rewrite <- E. unfold to_string. rewrite strtol_digits_app by lia.
  destruct t as [|d t]; cbn [strtol_digits]; auto. rewrite (T d t eq_refl). reflexivity.
Qed.

Lemma to_string_no n c : is_digit c = false -> ~ In c (to_string n).
Proof. intros H C. pose proof (digits_digit (S n) n) as F. rewrite Forall_forall in F. specialize (F _ C). congruence. Qed.
