From Verif.Common Require Import Prelude.
From Verif.Utilities Require Import Model.
From Verif.Enum Require Import Model Spec.
Local Open Scope Z_scope.

Lemma eqb_code c d : Ascii.eqb c d = Nat.eqb (nat_of_ascii c) (nat_of_ascii d).
Proof.
  destruct (Ascii.eqb_spec c d) as [->|N]; [now rewrite Nat.eqb_refl|].
  symmetry. apply Nat.eqb_neq. intro E. apply N. rewrite <- (ascii_nat_embedding c), <- (ascii_nat_embedding d). now rewrite E.
Qed.

Definition idchar (c : ascii) : Prop := letter c \/ digit c.

Lemma idchar_neq c d : idchar c -> ~ idchar d -> Ascii.eqb c d = false.
Proof. intros H N. apply Ascii.eqb_neq. intros ->. contradiction. Qed.

Lemma comma_not : ~ idchar ",".
Proof. unfold idchar, letter, digit. change (nat_of_ascii ",") with 44%nat. cbv zeta. lia. Qed.
Lemma blank_not : ~ idchar " ".
Proof. unfold idchar, letter, digit. change (nat_of_ascii " ") with 32%nat. cbv zeta. lia. Qed.
Lemma nul_not : ~ idchar "000".
Proof. unfold idchar, letter, digit. change (nat_of_ascii "000") with 0%nat. cbv zeta. lia. Qed.

Lemma identifier_chars s : identifier s -> Forall idchar s.
Proof. destruct s as [|c t]; [intros []|]. intros [H F]. constructor; [now left|exact F]. Qed.

Lemma cstr_id s : Forall idchar s -> cstr s = s.
Proof.
  induction 1 as [|c t H _ IH]; [reflexivity|]. simpl. now rewrite (idchar_neq c "000" H nul_not), IH.
Qed.

Lemma strtoul_identifier s : identifier s -> strtoul s = (0, s).
Proof.
  destruct s as [|c t]; [intros []|]. intros [H _]. unfold strtoul.
  assert (E : ltrim (c :: t) = c :: t).
  { cbn [ltrim]. unfold isspace, letter in *. cbv zeta in *.
    destruct (Nat.leb_spec 9 (nat_of_ascii c)), (Nat.leb_spec (nat_of_ascii c) 13), (Nat.eqb_spec (nat_of_ascii c) 32);
      simpl; try reflexivity; lia. }
  rewrite E, !eqb_code. unfold letter in H. cbv zeta in H.
  change (nat_of_ascii "-") with 45%nat. change (nat_of_ascii "+") with 43%nat.
  destruct (Nat.eqb_spec (nat_of_ascii c) 45); [lia|]. destruct (Nat.eqb_spec (nat_of_ascii c) 43); [lia|].
  cbn [digits]. unfold is_digit. cbv zeta.
  destruct (Nat.leb_spec 48 (nat_of_ascii c)), (Nat.leb_spec (nat_of_ascii c) 57); simpl; try reflexivity; lia.
Qed.

(** ** Walking over the text of the names *)
Lemma skip_blanks_repeat k s : skip_blanks (repeat " "%char k ++ s) = skip_blanks s.
Proof. induction k; simpl; auto. Qed.

Lemma skip_blanks_id s t : identifier s -> skip_blanks (s ++ t) = s ++ t.
Proof.
  intro H. pose proof (identifier_chars s H) as F. destruct s as [|c s]; [destruct H|]. inversion F; subst.
  simpl. now rewrite (idchar_neq c " ") by (assumption || exact blank_not).
Qed.

Lemma skip_blanks_end s : identifier s -> skip_blanks s = s.
Proof. intro H. pose proof (skip_blanks_id s [] H) as E. now rewrite !app_nil_r in E. Qed.

Lemma upto_comma_id s t : Forall idchar s -> upto_comma (s ++ ","%char :: t) = s.
Proof.
  induction 1 as [|c s H _ IH]; [reflexivity|]. simpl. now rewrite (idchar_neq c "," H comma_not), IH.
Qed.
Lemma upto_comma_end s : Forall idchar s -> upto_comma s = s.
Proof.
  induction 1 as [|c s H _ IH]; [reflexivity|]. simpl. now rewrite (idchar_neq c "," H comma_not), IH.
Qed.
Lemma after_name_id s t : Forall idchar s -> after_name (s ++ ","%char :: t) = ","%char :: t.
Proof.
  induction 1 as [|c s H _ IH]; [reflexivity|]. simpl. now rewrite (idchar_neq c "," H comma_not), IH.
Qed.
Lemma after_name_end s : Forall idchar s -> after_name s = [].
Proof.
  induction 1 as [|c s H _ IH]; [reflexivity|]. simpl. now rewrite (idchar_neq c "," H comma_not), IH.
Qed.

Fixpoint index_of (w : str) (names : list str) : option nat :=
  match names with
  | [] => None
  | n :: t => if str_eqb w n then Some O else option_map S (index_of w t)
  end.

Lemma arg_text_cons k n it items : arg_text ((k, n) :: it :: items) = repeat " "%char k ++ n ++ ","%char :: arg_text (it :: items).
Proof. reflexivity. Qed.

Lemma arg_text_nonempty it items : identifier (snd it) -> arg_text (it :: items) <> [].
Proof.
  destruct it as [k n]. simpl. intros H E. destruct n as [|c n]; [destruct H|].
  destruct items; [|apply app_eq_nil in E as [_ E]; discriminate].
  apply app_eq_nil in E as [_ E]. discriminate.
Qed.

Lemma arg_text_length items : Forall identifier (map snd items) -> (List.length items <= List.length (arg_text items))%nat.
Proof.
  induction items as [|[k n] items IH]; intro F; [simpl; lia|]. inversion F as [|? ? Hn F']; subst. specialize (IH F').
  simpl in Hn. destruct n as [|c n]; [destruct Hn|]. destruct items as [|it items].
  - cbn [arg_text]. rewrite app_length. simpl. lia.
  - rewrite arg_text_cons, !app_length. simpl List.length in *. lia.
Qed.

Lemma find_name_spec w : forall items fuel counter, Forall identifier (map snd items) ->
  (List.length items < fuel)%nat ->
  find_name fuel w (arg_text items) counter =
    option_map (fun i => counter + Z.of_nat i) (index_of w (map snd items)).
Proof.
  induction items as [|[k n] items IH]; intros fuel counter F Hf.
  - destruct fuel; [lia|]. reflexivity.
  - inversion F as [|? ? Hn F']; subst. simpl snd in *. destruct fuel as [|fuel]; [simpl in Hf; lia|].
    pose proof (arg_text_nonempty (k, n) items Hn) as Hne. pose proof (identifier_chars n Hn) as Hc.
    cbn [find_name]. destruct (arg_text ((k, n) :: items)) as [|a0 at0] eqn:E0; [congruence|]. rewrite <- E0 in *. clear Hne E0 a0 at0.
    destruct items as [|it items].
    + cbn [arg_text]. rewrite skip_blanks_repeat. rewrite skip_blanks_end by assumption.
      rewrite upto_comma_end, after_name_end by assumption. cbn [map index_of snd].
      destruct (str_eqb w n); [simpl; f_equal; lia|reflexivity].
    + rewrite arg_text_cons, skip_blanks_repeat, skip_blanks_id, upto_comma_id, after_name_id by assumption.
      cbn [map index_of snd]. destruct (str_eqb w n); [simpl; f_equal; lia|].
      rewrite IH; [|assumption|simpl in *; lia]. cbn [map index_of snd].
      destruct (if str_eqb w (snd it) then _ else _); simpl; [f_equal; lia|reflexivity].
Qed.

Lemma index_of_In w names : index_of w names = None <-> ~ In w names.
Proof.
  induction names as [|n t IH]; simpl; [tauto|]. destruct (str_eqb_spec w n) as [->|N].
  - split; [discriminate|]. intro H. exfalso. apply H. now left.
  - destruct (index_of w t); simpl; split; intro H; try discriminate; try reflexivity.
    + exfalso. destruct IH as [_ IH]. assert (X : ~ In w t) by tauto. specialize (IH X). discriminate.
    + intros [K|K]; [congruence|]. destruct IH as [IH _]. now apply (IH eq_refl).
Qed.

Lemma index_of_nth names : NoDup names -> forall i w, nth_error names i = Some w -> index_of w names = Some i.
Proof.
  induction 1 as [|n t Hn _ IH]; intros i w E; [destruct i; discriminate|]. destruct i as [|i]; simpl in *.
  - injection E as ->. now rewrite str_eqb_refl.
  - destruct (str_eqb_spec w n) as [->|N].
    + exfalso. apply Hn. now apply nth_error_In in E.
    + now rewrite (IH _ _ E).
Qed.

Lemma enum_parse_name inv items i w : Forall identifier (map snd items) -> NoDup (map snd items) ->
  nth_error (map snd items) i = Some w -> enum_parse inv w (arg_text items) = Z.of_nat i.
Proof.
  intros F ND E. assert (Hw : identifier w). { rewrite Forall_forall in F. apply F. now apply nth_error_In in E. }
  unfold enum_parse. rewrite cstr_id by now apply identifier_chars. rewrite strtoul_identifier by assumption.
  destruct w as [|c t] eqn:Ew; [destruct Hw|]. rewrite <- Ew in *.
  rewrite find_name_spec; [|assumption|].
  - now rewrite (index_of_nth _ ND _ _ E).
  - pose proof (arg_text_length items F). lia.
Qed.

Lemma enum_parse_unknown inv items w : Forall identifier (map snd items) -> identifier w -> ~ In w (map snd items) ->
  enum_parse inv w (arg_text items) = inv.
Proof.
  intros F Hw N. unfold enum_parse. rewrite cstr_id by now apply identifier_chars. rewrite strtoul_identifier by assumption.
  destruct w as [|c t] eqn:Ew; [destruct Hw|]. rewrite <- Ew in *.
  rewrite find_name_spec; [|assumption|].
  - apply index_of_In in N. now rewrite N.
  - pose proof (arg_text_length items F). lia.
Qed.

Lemma skip_items_id n s t : Forall idchar s -> skip_items (S n) (s ++ ","%char :: t) = skip_items n t.
Proof.
  induction 1 as [|c s H _ IH]; [reflexivity|]. cbn [app skip_items]. rewrite (idchar_neq c "," H comma_not). exact IH.
Qed.

Lemma skip_items_blanks n k s : skip_items (S n) (repeat " "%char k ++ s) = skip_items (S n) s.
Proof. induction k; simpl; auto. Qed.

Lemma to_string_name items : Forall identifier (map snd items) -> forall i w,
  nth_error (map snd items) i = Some w -> enum_to_string i (arg_text items) = w.
Proof.
  unfold enum_to_string. induction items as [|[k n] items IH]; intros F i w E; [destruct i; discriminate|].
  inversion F as [|? ? Hn F']; subst. simpl snd in *. pose proof (identifier_chars n Hn) as Hc. destruct i as [|i].
  - simpl in E. injection E as <-. assert (Z : forall s, skip_items 0 s = s) by (intros []; reflexivity). rewrite Z.
    destruct items as [|it items].
    + cbn [arg_text]. rewrite skip_blanks_repeat. rewrite skip_blanks_end by assumption.
      now apply upto_comma_end.
    + rewrite arg_text_cons, skip_blanks_repeat, skip_blanks_id, upto_comma_id by assumption. reflexivity.
  - cbn [map nth_error] in E. destruct items as [|it items]; [destruct i; discriminate|].
    rewrite arg_text_cons, skip_items_blanks, skip_items_id by assumption. now apply IH.
Qed.

(** ** Numbers *)
Lemma is_digit_spec c : is_digit c = true <-> digit c.
Proof.
  unfold is_digit, digit. cbv zeta. rewrite andb_true_iff, !Nat.leb_le. reflexivity.
Qed.

Lemma digits_numeral s : Forall digit s -> forall v any, digits v any s =
  (decimal v s, match s with [] => any | _ => true end, []).
Proof.
  induction 1 as [|c t H _ IH]; intros v any; [reflexivity|]. cbn [digits]. apply is_digit_spec in H as E. rewrite E, IH.
  cbn [decimal]. unfold digit_val. destruct t; reflexivity.
Qed.

Lemma numeral_cstr s : Forall digit s -> cstr s = s.
Proof. intro F. apply cstr_id. eapply Forall_impl; [|exact F]. intros c H. now right. Qed.

Lemma strtoul_numeral s : numeral s -> decimal 0 s < 2 ^ 64 -> strtoul s = (decimal 0 s, []).
Proof.
  intros [Hne F] Hb. destruct s as [|c t]; [congruence|]. unfold strtoul.
  assert (Hc : digit c) by now inversion F. unfold digit in Hc. cbv zeta in Hc.
  assert (E : ltrim (c :: t) = c :: t).
  { cbn [ltrim]. unfold isspace. cbv zeta.
    destruct (Nat.leb_spec 9 (nat_of_ascii c)), (Nat.leb_spec (nat_of_ascii c) 13), (Nat.eqb_spec (nat_of_ascii c) 32);
      simpl; try reflexivity; lia. }
  rewrite E, !eqb_code. change (nat_of_ascii "-") with 45%nat. change (nat_of_ascii "+") with 43%nat.
  destruct (Nat.eqb_spec (nat_of_ascii c) 45); [lia|]. destruct (Nat.eqb_spec (nat_of_ascii c) 43); [lia|].
  rewrite digits_numeral by assumption. cbn [fst snd].
  destruct (Z.leb_spec (2 ^ 64) (decimal 0 (c :: t))); [lia|]. reflexivity.
Qed.

Lemma decimal_nonneg s : Forall digit s -> forall v, 0 <= v -> 0 <= decimal v s.
Proof.
  induction 1 as [|c t H _ IH]; intros v Hv; [exact Hv|]. cbn [decimal]. apply IH. unfold digit in H. cbv zeta in H. lia.
Qed.

Lemma enum_parse_numeral inv s args : numeral s -> decimal 0 s < 2 ^ 31 -> enum_parse inv s args = decimal 0 s.
Proof.
  intros H Hb. unfold enum_parse. rewrite numeral_cstr by apply H. rewrite strtoul_numeral by (assumption || lia).
  pose proof (decimal_nonneg s (proj2 H) 0 ltac:(lia)). unfold to_int. cbv zeta.
  rewrite Z.mod_small by lia. destruct (Z.leb_spec (2 ^ 31) (decimal 0 s)); lia.
Qed.

Lemma digits_consumed s : forall v any v', digits v any s = (v', true, []) -> Forall digit s /\ (any = true \/ s <> []).
Proof.
  induction s as [|c t IH]; intros v any v' E; cbn [digits] in E.
  - injection E as _ ->. split; [constructor|now left].
  - destruct (is_digit c) eqn:D; [|discriminate]. apply IH in E as [F _]. split; [|right; discriminate].
    constructor; [now apply is_digit_spec|assumption].
Qed.

Lemma ltrim_split s : exists ws, s = ws ++ ltrim s /\ Forall (fun c => In (nat_of_ascii c) [9; 10; 11; 12; 13; 32]%nat) ws.
Proof.
  induction s as [|c t IH]; [exists []; split; [reflexivity|constructor]|]. cbn [ltrim].
  destruct (isspace c) eqn:E; [|exists []; split; [reflexivity|constructor]].
  destruct IH as (ws & E' & F). exists (c :: ws). split; [simpl; now f_equal|]. constructor; [|assumption].
  unfold isspace in E. cbv zeta in E. apply orb_true_iff in E as [E|E].
  - apply andb_true_iff in E as [E1 E2]. apply Nat.leb_le in E1, E2. simpl. lia.
  - apply Nat.eqb_eq in E. simpl. lia.
Qed.

Lemma strtoul_consumed s : snd (strtoul s) = [] -> s = [] \/ number_word s.
Proof.
  unfold strtoul. destruct (ltrim_split s) as (ws & Es & Fw). revert Es. generalize (ltrim s) as s1. intros s1 Es.
  destruct (match s1 with [] => (false, s1) | c :: t => _ end) as [neg s2] eqn:E2.
  destruct (digits 0 false s2) as [[v any] rest] eqn:ED. destruct any; [|simpl; now left].
  simpl. intros ->. right. apply digits_consumed in ED as [F [K|Hne]]; [discriminate|].
  destruct s1 as [|c t].
  - injection E2 as _ <-. congruence.
  - destruct (Ascii.eqb_spec c "-") as [->|N1].
    + injection E2 as _ <-. exists ws, ["-"%char], t. repeat split; auto.
    + destruct (Ascii.eqb_spec c "+") as [->|N2].
      * injection E2 as _ <-. exists ws, ["+"%char], t. repeat split; auto.
      * injection E2 as _ <-. exists ws, [], (c :: t). repeat split; auto.
Qed.

Lemma cstr_nonul s : ~ In "000"%char s -> cstr s = s.
Proof.
  induction s as [|c t IH]; intro H; [reflexivity|]. cbn [cstr]. destruct (Ascii.eqb_spec c "000") as [->|].
  - exfalso. apply H. now left.
  - f_equal. apply IH. intro K. apply H. now right.
Qed.

Lemma enum_parse_other inv items w : Forall identifier (map snd items) -> ~ In "000"%char w ->
  w <> [] -> ~ number_word w -> ~ In w (map snd items) -> enum_parse inv w (arg_text items) = inv.
Proof.
  intros F H0 Hne Hn N. unfold enum_parse. rewrite cstr_nonul by assumption.
  pose proof (strtoul_consumed w) as Hc. destruct (strtoul w) as [number p]. simpl in Hc.
  destruct p as [|c p]; [exfalso; destruct (Hc eq_refl); contradiction|].
  rewrite find_name_spec; [|assumption|pose proof (arg_text_length items F); lia].
  apply index_of_In in N. now rewrite N.
Qed.

(** A boolean test for the examples. *)
Definition letterb (c : ascii) : bool :=
  let n := nat_of_ascii c in
  ((Nat.leb 65 n && Nat.leb n 90) || (Nat.leb 97 n && Nat.leb n 122) || Nat.eqb n 95)%bool.
Definition identifierb (s : str) : bool :=
  match s with [] => false | c :: t => (letterb c && forallb (fun d => letterb d || is_digit d) t)%bool end.
Lemma letterb_spec c : letterb c = true -> letter c.
Proof.
  unfold letterb, letter. cbv zeta. rewrite !orb_true_iff, !andb_true_iff, !Nat.leb_le, Nat.eqb_eq. lia.
Qed.
Lemma identifierb_spec s : identifierb s = true -> identifier s.
Proof.
  destruct s as [|c t]; [discriminate|]. simpl. rewrite andb_true_iff. intros [H1 H2]. split; [now apply letterb_spec|].
  rewrite forallb_forall in H2. apply Forall_forall. intros d Hd. specialize (H2 d Hd). apply orb_true_iff in H2 as [H|H].
  - left. now apply letterb_spec.
  - right. now apply is_digit_spec.
Qed.
