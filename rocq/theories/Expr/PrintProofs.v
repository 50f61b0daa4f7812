From Verif.Common Require Import Prelude.
From Verif.Expr Require Import Model Print PrintSpec.
From Coq Require Import Field.

Lemma isqrt_dec u : u = UISqrt \/ u <> UISqrt.
Proof. destruct u; try (right; discriminate). now left. Qed.

Section PrintProofs.
  Variables (V : Type) (v0 v1 : V) (add mul sub : V -> V -> V) (opp : V -> V) (div : V -> V -> V) (inv : V -> V).
  Hypothesis FT : field_theory v0 v1 add mul sub opp div inv eq.
  Add Field VF : FT.
  Variable eq0 : V -> bool.
  Hypothesis eq0_spec : forall x, eq0 x = true <-> x = v0.
  Variables (bval : binop -> V -> V -> option V) (uval : unop -> V -> option V) (tval : V -> bool).
  Variables (shown : V -> V) (rho : str -> V) (var : nat -> option V).
  Variables (apply : op -> option V -> option V -> option V) (call : unop + binop -> list (option V) -> option V).
  Variables (un : unop -> Prop) (bin : binop -> Prop).
  Notation lift2 := (lift2 V).
  Notation odiv := (odiv V div eq0).
  Notation eval := (eval V add mul sub div eq0 bval uval tval rho).
  Notation strict2 := (strict2 V).
  Notation strict1 := (strict1 V).
  Hypotheses (Aadd : forall a b, apply OAdd a b = lift2 add a b) (Asub : forall a b, apply OSub a b = lift2 sub a b)
    (Amul : forall a b, apply OMul a b = lift2 mul a b) (Adiv : forall a b, apply ODiv a b = odiv a b)
    (Abin : forall b o x y, bin b -> infix b = Some o -> apply o x y = strict2 (bval b) x y)
    (Cbin : forall b x y, bin b -> infix b = None -> call (inr b) [x; y] = strict2 (bval b) x y)
    (Cun : forall u x, un u -> u <> UISqrt -> call (inl u) [x] = strict1 (uval u) x)
    (Cisqrt : forall x, un UISqrt -> odiv (Some v1) (call (inl USqrt) [x]) = strict1 (uval UISqrt) x).
  Notation nodes := (nodes V (fun c => shown c = c) un bin (fun k a => var k = eval a)).
  Notation tok := (tok V).
  Notation parse := (parse V (fun n => Some (rho n)) var apply call tval).
  Notation operators := (operators V (fun n => Some (rho n)) var apply call tval).
  Notation arguments := (arguments V (fun n => Some (rho n)) var apply call tval).
  Notation print := (print V v1 shown).

  Definition P L ts (o : option V * list tok) := exists f0, forall f, f0 <= f -> parse f L ts = Some o.
  Definition O L acc ts (o : option V * list tok) := exists f0, forall f, f0 <= f -> operators f L acc ts = Some o.

  Definition next_level (ts : list tok) : nat := match ts with TOp _ o :: _ => level o | _ => 9 end.

  Lemma O_done L acc ts : next_level ts <> L -> O L acc ts (acc, ts).
  Proof.
    intro H. exists 1. intros [|f] L1; [lia|]. cbn [PrintSpec.operators]. destruct ts as [|[] r]; try reflexivity.
    simpl in H. destruct (Nat.eqb_spec (level o) L); [contradiction|reflexivity].
  Qed.
  Lemma O_step L acc o r v r' out : level o = L -> P (L - 1) r (v, r') -> O L (apply o acc v) r' out -> O L acc (TOp V o :: r) out.
  Proof.
    intros HL [f1 H1] [f2 H2]. exists (S (f1 + f2)). intros [|f] L1; [lia|]. cbn [PrintSpec.operators]. rewrite HL, Nat.eqb_refl.
    rewrite H1 by lia. cbn [obind]. apply H2. lia.
  Qed.
  Lemma P_up L ts v r out : L < 6 -> P L ts (v, r) -> O (S L) v r out -> P (S L) ts out.
  Proof.
    intros HL [f1 H1] [f2 H2]. exists (S (f1 + f2)). intros [|f] L1; [lia|]. specialize (H1 f ltac:(lia)). specialize (H2 f ltac:(lia)).
    cbn [PrintSpec.parse]. do 6 (destruct L as [|L]; [rewrite H1; exact H2|]). lia.
  Qed.
  Lemma P_plain L ts v r : L < 6 -> P L ts (v, r) -> next_level r <> S L -> P (S L) ts (v, r).
  Proof. intros HL H N. eapply P_up; [exact HL|exact H|]. now apply O_done. Qed.
  Lemma P_7 ts v r : P 6 ts (v, r) -> (forall r', r <> TQ V :: r') -> P 7 ts (v, r).
  Proof.
    intros [f1 H1] N. exists (S f1). intros [|f] L1; [lia|]. cbn [PrintSpec.parse]. rewrite H1 by lia. cbn [obind].
    destruct r as [|[] r']; try reflexivity. now destruct (N r').
  Qed.
  (** A value read at level [L] is read at any higher level when no operator of the levels between follows. *)
  Lemma P_raise L M ts v r : L <= M -> M <= 6 -> P L ts (v, r) -> M < next_level r -> P M ts (v, r).
  Proof.
    intros H HM HP HN. induction H as [|M H IH]; [exact HP|]. apply P_plain; [lia|apply IH; lia|lia].
  Qed.
  Lemma P_paren ts v rest : P 7 (ts ++ TRP V :: rest) (v, TRP V :: rest) -> P 0 (TLP V :: ts ++ TRP V :: rest) (v, rest).
  Proof. intros [f1 H1]. exists (S f1). intros [|f] L1; [lia|]. cbn [PrintSpec.parse]. rewrite H1 by lia. reflexivity. Qed.
  Lemma arguments_S f ts : arguments (S f) ts = obind (parse f 7 ts) (fun '(v, r) =>
    match r with TComma _ :: r' => obind (arguments f r') (fun '(vs, r'') => Some (v :: vs, r'')) | TRP _ :: r' => Some ([v], r') | _ => None end).
  Proof. reflexivity. Qed.
  Lemma call_S f g r : parse (S f) 0 (TFun V g :: TLP V :: r) = obind (arguments f r) (fun '(vs, r') => Some (call g vs, r')).
  Proof. reflexivity. Qed.
  Lemma P_call1 g ts v rest : P 7 (ts ++ TRP V :: rest) (v, TRP V :: rest) -> P 0 (TFun V g :: TLP V :: ts ++ TRP V :: rest) (call g [v], rest).
  Proof.
    intros [f1 H1]. exists (S (S f1)). intros [|[|f]] L1; try lia. cbn [PrintSpec.parse PrintSpec.arguments]. rewrite H1 by lia. reflexivity.
  Qed.
  Lemma P_call2 g a va b vb rest : P 7 (a ++ TComma V :: b ++ TRP V :: rest) (va, TComma V :: b ++ TRP V :: rest) ->
    P 7 (b ++ TRP V :: rest) (vb, TRP V :: rest) -> P 0 (TFun V g :: TLP V :: a ++ TComma V :: b ++ TRP V :: rest) (call g [va; vb], rest).
  Proof.
    intros [f1 H1] [f2 H2]. exists (S (S (S (f1 + f2)))). intros [|[|[|f]]] L1; try lia. rewrite call_S, arguments_S.
    rewrite H1 by lia. cbn [obind]. rewrite arguments_S, H2 by lia. reflexivity.
  Qed.

  (** How tightly the text of a node binds. *)
  Definition lev (e : expr V) : nat :=
    match e with Sum _ _ _ | Sub _ _ _ => 2 | Product _ _ _ | Divide _ _ _ | Un _ UISqrt _ => 1 | _ => 0 end.

  (** The facts proved together: a tight node is read as one primary; a factor, a term, after an operator. *)
  Definition tight e := lev e = 0 -> forall rest, P 0 (print e ++ rest) (eval e, rest).
  Definition factor e := lev e <= 1 -> forall rest,
    (forall out, O 1 (eval e) rest out -> P 1 (print e ++ rest) out) /\
    (forall acc out, O 1 (lift2 mul acc (eval e)) rest out -> O 1 acc (TOp V OMul :: print e ++ rest) out).
  Definition term e := forall rest, 1 < next_level rest ->
    (forall out, O 2 (eval e) rest out -> P 2 (print e ++ rest) out) /\
    (forall acc out, O 2 (lift2 add acc (eval e)) rest out -> O 2 acc (TOp V OAdd :: print e ++ rest) out).

  Lemma factor_of_tight e : lev e = 0 -> tight e -> factor e.
  Proof.
    intros H0 T _ rest. split.
    - intros out HO. eapply P_up; [lia|now apply T|exact HO].
    - intros acc out HO. eapply O_step; [reflexivity|now apply T|]. now rewrite Amul.
  Qed.
  Lemma term_of_factor e : lev e <= 1 -> factor e -> term e.
  Proof.
    intros H F rest HN. assert (P1 : P 1 (print e ++ rest) (eval e, rest)).
    { apply (F H). apply O_done. lia. }
    split.
    - intros out HO. eapply P_up; [lia|exact P1|exact HO].
    - intros acc out HO. eapply O_step; [reflexivity|exact P1|]. now rewrite Aadd.
  Qed.
  Lemma term_top e M rest : term e -> 2 <= M -> M <= 6 -> M < next_level rest -> P M (print e ++ rest) (eval e, rest).
  Proof. intros T H2 HM HN. apply (P_raise 2); try lia. apply (T rest); [lia|]. apply O_done. lia. Qed.
  Lemma term_7 e rest : term e -> 6 < next_level rest -> (forall r, rest <> TQ V :: r) -> P 7 (print e ++ rest) (eval e, rest).
  Proof. intros T HN HQ. apply P_7; [|exact HQ]. apply term_top; auto. Qed.

  Lemma eq0_false x : eq0 x = false -> x <> v0.
  Proof. intros H E. apply eq0_spec in E. congruence. Qed.
  Lemma mul_assoc a b c : lift2 mul a (lift2 mul b c) = lift2 mul (lift2 mul a b) c.
  Proof. destruct a, b, c; try reflexivity. cbn. f_equal. ring. Qed.
  Lemma mul_div a b c : lift2 mul a (odiv b c) = odiv (lift2 mul a b) c.
  Proof. destruct a, b, c; try reflexivity; cbn; destruct (eq0 _) eqn:Q; try reflexivity. cbn. f_equal. apply eq0_false in Q. field. exact Q. Qed.
  Lemma add_assoc a b c : lift2 add a (lift2 add b c) = lift2 add (lift2 add a b) c.
  Proof. destruct a, b, c; try reflexivity. cbn. f_equal. ring. Qed.
  Lemma add_sub a b c : lift2 add a (lift2 sub b c) = lift2 sub (lift2 add a b) c.
  Proof. destruct a, b, c; try reflexivity. cbn. f_equal. ring. Qed.
  Lemma mul1 a : lift2 mul a (Some v1) = a.
  Proof. destruct a; [|reflexivity]. cbn. f_equal. ring. Qed.

  (** Bracketing makes any operand a factor. *)
  Lemma bracket_factor e : term e -> factor e -> forall rest,
    (forall out, O 1 (eval e) rest out -> P 1 (bracketed V e (print e) ++ rest) out) /\
    (forall acc out, O 1 (lift2 mul acc (eval e)) rest out -> O 1 acc (TOp V OMul :: bracketed V e (print e) ++ rest) out).
  Proof.
    intros T F rest. unfold bracketed. destruct (is_sum_or_sub V e) eqn:E.
    - cbn [app]. rewrite <- app_assoc. cbn [app].
      assert (P0 : P 0 (TLP V :: print e ++ TRP V :: rest) (eval e, rest)).
      { apply P_paren. apply term_7; [exact T|simpl; lia|congruence]. }
      split.
      + intros out HO. eapply P_up; [lia|exact P0|exact HO].
      + intros acc out HO. eapply O_step; [reflexivity|exact P0|]. now rewrite Amul.
    - apply F. destruct e; try discriminate; simpl; try lia. destruct u; lia.
  Qed.

  Lemma all e : nodes e -> tight e /\ factor e /\ term e.
  Proof.
    assert (Tight : forall e, lev e = 0 -> tight e -> tight e /\ factor e /\ term e).
    { intros e' H T. pose proof (factor_of_tight _ H T) as F. split; [exact T|]. split; [exact F|]. apply term_of_factor; [lia|exact F]. }
    assert (Factor : forall e, lev e = 1 -> factor e -> tight e /\ factor e /\ term e).
    { intros e' H F. split; [intro H0; lia|]. split; [exact F|]. apply term_of_factor; [lia|exact F]. }
    induction e as [c|n|l IHl r IHr|l IHl r IHr|l IHl r IHr|l IHl r IHr|b l IHl r IHr|u a IHa|c IHc a IHa b IHb|k a IHa]; cbn [PrintSpec.nodes]; intro HN.
    - apply Tight; [reflexivity|]. intros _ rest. cbn [Print.print app].
      replace (option_map shown c) with c by (destruct c as [x|]; simpl; [now rewrite HN|reflexivity]).
      apply (P_paren [TNum V c]). cbn [app Model.eval]. apply P_7; [|congruence]. apply (P_raise 0); [lia|lia| |simpl; lia].
      exists 1. intros [|f] L; [lia|]. reflexivity.
    - apply Tight; [reflexivity|]. intros _ rest. exists 1. intros [|f] L; [lia|]. reflexivity.
    - destruct HN as [Nl Nr]. destruct (IHl Nl) as (_ & _ & Tl). destruct (IHr Nr) as (_ & _ & Tr).
      assert (T : term (Sum V l r)).
      { intros rest HR. cbn [Print.print Model.eval]. rewrite <- app_assoc. cbn [app]. split.
        - intros out HO. apply Tl; [simpl; lia|]. now apply Tr.
        - intros acc out HO. rewrite add_assoc in HO. apply Tl; [simpl; lia|]. now apply Tr. }
      split; [intro H; discriminate|]. split; [intro H; simpl in H; lia|exact T].
    - destruct HN as [Nl Nr]. destruct (IHl Nl) as (_ & _ & Tl). destruct (IHr Nr) as (_ & Fr & Tr).
      assert (T : term (Sub V l r)).
      { intros rest HR. cbn [Print.print Model.eval]. rewrite <- app_assoc. cbn [app].
        assert (P1 : P 1 (bracketed V r (print r) ++ rest) (eval r, rest)).
        { apply (bracket_factor r Tr Fr rest). apply O_done. lia. }
        split.
        - intros out HO. apply Tl; [simpl; lia|]. eapply O_step; [reflexivity|exact P1|]. now rewrite Asub.
        - intros acc out HO. rewrite add_sub in HO. apply Tl; [simpl; lia|]. eapply O_step; [reflexivity|exact P1|]. now rewrite Asub. }
      split; [intro H; discriminate|]. split; [intro H; simpl in H; lia|exact T].
    - destruct HN as [Nl Nr]. destruct (IHl Nl) as (_ & Fl & Tl). destruct (IHr Nr) as (_ & Fr & Tr).
      apply Factor; [reflexivity|]. intros _ rest. cbn [Print.print Model.eval]. rewrite <- app_assoc. cbn [app]. split.
      + intros out HO. apply (bracket_factor l Tl Fl). now apply (bracket_factor r Tr Fr).
      + intros acc out HO. rewrite mul_assoc in HO. apply (bracket_factor l Tl Fl). now apply (bracket_factor r Tr Fr).
    - destruct HN as [Nl Nr]. destruct (IHl Nl) as (_ & _ & Tl). destruct (IHr Nr) as (_ & _ & Tr).
      apply Factor; [reflexivity|]. intros _ rest. cbn [Print.print Model.eval]. cbn [app]. rewrite <- app_assoc. cbn [app]. rewrite <- app_assoc. cbn [app].
      assert (PL : forall r0, P 0 (TLP V :: print l ++ TRP V :: r0) (eval l, r0)) by (intro r0; apply P_paren; apply term_7; [exact Tl|simpl; lia|congruence]).
      assert (PR : P 0 (TLP V :: print r ++ TRP V :: rest) (eval r, rest)) by (apply P_paren; apply term_7; [exact Tr|simpl; lia|congruence]).
      split.
      + intros out HO. eapply P_up; [lia|apply PL|]. eapply O_step; [reflexivity|exact PR|]. now rewrite Adiv.
      + intros acc out HO. rewrite mul_div in HO. eapply O_step; [reflexivity|apply PL|]. eapply O_step; [reflexivity|exact PR|].
        now rewrite Adiv, Amul.
    - destruct HN as (Nb & Nl & Nr). destruct (IHl Nl) as (_ & _ & Tl). destruct (IHr Nr) as (_ & _ & Tr).
      apply Tight; [reflexivity|]. intros _ rest. cbn [Print.print Model.eval]. destruct (infix b) as [o|] eqn:Eo.
      + cbn [app]. rewrite <- app_assoc. cbn [app]. rewrite <- app_assoc. cbn [app].
        replace (print l ++ TOp V o :: print r ++ TRP V :: rest) with ((print l ++ TOp V o :: print r) ++ TRP V :: rest) by now rewrite <- app_assoc.
        apply P_paren. rewrite <- app_assoc. cbn [app]. apply P_7; [|congruence].
        assert (HL : 3 <= level o <= 6) by (destruct b; try discriminate; injection Eo as <-; simpl; lia).
        apply (P_raise (level o)); [lia|lia| |simpl; lia].
        replace (level o) with (S (level o - 1)) by lia. eapply P_up; [lia|apply term_top; [exact Tl|lia|lia|simpl; lia]|].
        replace (S (level o - 1)) with (level o) by lia.
        eapply O_step; [reflexivity|apply term_top; [exact Tr|lia|lia|simpl; lia]|]. rewrite (Abin b o) by assumption.
        unfold strict2. apply O_done. simpl. lia.
      + cbn [app]. rewrite <- app_assoc. cbn [app]. rewrite <- app_assoc. cbn [app].
        change (match eval l with Some x => match eval r with Some y => bval b x y | None => None end | None => None end)
          with (strict2 (bval b) (eval l) (eval r)).
        rewrite <- Cbin by assumption. apply P_call2; apply term_7; auto; try (simpl; lia); congruence.
    - destruct HN as [Nu Na]. destruct (IHa Na) as (_ & _ & Ta). destruct (isqrt_dec u) as [-> | Hu].
      + apply Factor; [reflexivity|]. intros _ rest. cbn [Print.print app]. rewrite <- app_assoc. cbn [app].
        change (eval (Un V UISqrt a)) with (strict1 (uval UISqrt) (eval a)). rewrite <- Cisqrt by assumption.
        assert (P1 : P 0 (TFun V (inl USqrt) :: TLP V :: print a ++ TRP V :: rest) (call (inl USqrt) [eval a], rest)).
        { apply P_call1. apply term_7; [exact Ta|simpl; lia|congruence]. }
        assert (PN : forall r0, P 0 (TNum V (Some v1) :: r0) (Some v1, r0)) by (intro r0; exists 1; intros [|f] L; [lia|]; reflexivity).
        split.
        * intros out HO. eapply P_up; [lia|apply PN|]. eapply O_step; [reflexivity|exact P1|]. now rewrite Adiv.
        * intros acc out HO. rewrite mul_div in HO. eapply O_step; [reflexivity|apply PN|]. eapply O_step; [reflexivity|exact P1|].
          now rewrite Adiv, Amul.
      + apply Tight; [destruct u; try reflexivity; contradiction|]. intros _ rest.
        assert (Ep : print (Un V u a) = TFun V (inl u) :: TLP V :: print a ++ [TRP V]) by (destruct u; try reflexivity; contradiction).
        rewrite Ep. cbn [app]. rewrite <- app_assoc. cbn [app].
        change (eval (Un V u a)) with (strict1 (uval u) (eval a)). rewrite <- Cun by assumption.
        apply P_call1. apply term_7; [exact Ta|simpl; lia|congruence].
    - destruct HN as (Nc & Na & Nb). destruct (IHc Nc) as (_ & _ & Tc). destruct (IHa Na) as (_ & _ & Ta). destruct (IHb Nb) as (_ & _ & Tb).
      apply Tight; [reflexivity|]. intros _ rest. cbn [Print.print app].
      replace ((print c ++ TQ V :: print a ++ TColon V :: print b ++ [TRP V]) ++ rest)
        with ((print c ++ TQ V :: print a ++ TColon V :: print b) ++ TRP V :: rest)
        by (repeat (rewrite <- app_assoc; cbn [app]); reflexivity).
      apply P_paren. repeat (rewrite <- app_assoc; cbn [app]).
      destruct (term_top c 6 (TQ V :: print a ++ TColon V :: print b ++ TRP V :: rest) Tc) as [f1 H1]; [lia|lia|simpl; lia|].
      destruct (term_7 a (TColon V :: print b ++ TRP V :: rest) Ta) as [f2 H2]; [simpl; lia|congruence|].
      destruct (term_7 b (TRP V :: rest) Tb) as [f3 H3]; [simpl; lia|congruence|].
      exists (S (f1 + f2 + f3)). intros [|f] L; [lia|]. cbn [PrintSpec.parse]. rewrite H1 by lia. cbn [obind]. rewrite H2 by lia. cbn [obind].
      rewrite H3 by lia. reflexivity.
    - apply Tight; [reflexivity|]. intros _ rest. exists 1. intros [|f] L; [lia|]. cbn [Print.print app PrintSpec.parse Model.eval]. now rewrite HN.
  Qed.

  Lemma print_reads e : nodes e -> reads V (fun n => Some (rho n)) var apply call tval (print e) (eval e).
  Proof.
    intro HN. destruct (all e HN) as (_ & _ & T). destruct (term_7 e [] T) as [f H]; [simpl; lia|congruence|].
    rewrite app_nil_r in H. exists f. exact H.
  Qed.
End PrintProofs.

(** More fuel does not change what is read. *)
Section Mono.
  Variables (V : Type) (name : str -> option V) (var : nat -> option V) (apply : op -> option V -> option V -> option V)
    (call : unop + binop -> list (option V) -> option V) (truth : V -> bool).
  Notation parse := (PrintSpec.parse V name var apply call truth).
  Notation operators := (PrintSpec.operators V name var apply call truth).
  Notation arguments := (PrintSpec.arguments V name var apply call truth).
  Lemma parse_eq f L ts : parse (S f) L ts =
    match L with
    | 0 => match ts with
           | TName _ n :: r => Some (name n, r) | TSub _ k :: r => Some (var k, r) | TNum _ c :: r => Some (c, r)
           | TLP _ :: r => obind (parse f 7 r) (fun '(v, r') => match r' with TRP _ :: r'' => Some (v, r'') | _ => None end)
           | TFun _ g :: TLP _ :: r => obind (arguments f r) (fun '(vs, r') => Some (call g vs, r'))
           | _ => None
           end
    | 7 => obind (parse f 6 ts) (fun '(c, r) =>
           match r with
           | TQ _ :: r1 => obind (parse f 7 r1) (fun '(a, r2) =>
               match r2 with TColon _ :: r3 => obind (parse f 7 r3) (fun '(b, r4) => Some (choose V truth c a b, r4)) | _ => None end)
           | _ => Some (c, r)
           end)
    | S L' => obind (parse f L' ts) (fun '(v, r) => operators f L v r)
    end.
  Proof. reflexivity. Qed.
  Lemma operators_eq f L acc ts : operators (S f) L acc ts =
    match ts with
    | TOp _ o :: r => if Nat.eqb (level o) L then obind (parse f (L - 1) r) (fun '(v, r') => operators f L (apply o acc v) r') else Some (acc, ts)
    | _ => Some (acc, ts)
    end.
  Proof. reflexivity. Qed.
  Lemma arguments_eq f ts : arguments (S f) ts = obind (parse f 7 ts) (fun '(v, r) =>
    match r with TComma _ :: r' => obind (arguments f r') (fun '(vs, r'') => Some (v :: vs, r'')) | TRP _ :: r' => Some ([v], r') | _ => None end).
  Proof. reflexivity. Qed.
  Lemma obind_Some A B (o : option A) (k : A -> option B) b : obind o k = Some b -> exists a, o = Some a /\ k a = Some b.
  Proof. destruct o as [a|]; [|discriminate]. intro H. now exists a. Qed.
  Lemma mono f : (forall L ts o, parse f L ts = Some o -> parse (S f) L ts = Some o) /\
    (forall L a ts o, operators f L a ts = Some o -> operators (S f) L a ts = Some o) /\
    (forall ts o, arguments f ts = Some o -> arguments (S f) ts = Some o).
  Proof.
    induction f as [|f (IP & IO & IA)]; [repeat split; discriminate|]. split; [|split].
    - intros L ts o H. rewrite parse_eq in H. rewrite parse_eq.
      destruct L as [|L].
      + destruct ts as [|[] r]; try discriminate; try exact H.
        * destruct r as [|[] r]; try discriminate. apply obind_Some in H as ([vs r'] & H1 & H2). apply IA in H1. rewrite H1. exact H2.
        * apply obind_Some in H as ([v r'] & H1 & H2). apply IP in H1. rewrite H1. exact H2.
      + do 6 (destruct L as [|L]; [apply obind_Some in H as ([v r] & H1 & H2); apply IP in H1; rewrite H1; cbn [obind]; now apply IO|]).
        destruct L as [|L].
        * apply obind_Some in H as ([v r] & H1 & H2). apply IP in H1. rewrite H1. cbn [obind].
          destruct r as [|[] r]; try exact H2.
          apply obind_Some in H2 as ([w r1] & H3 & H4). apply IP in H3. rewrite H3. cbn [obind]. destruct r1 as [|[] r1]; try exact H4.
          apply obind_Some in H4 as ([z r2] & H5 & H6). apply IP in H5. rewrite H5. exact H6.
        * apply obind_Some in H as ([v r] & H1 & H2). apply IP in H1. rewrite H1. cbn [obind]. now apply IO.
    - intros L a ts o H. rewrite operators_eq in H. rewrite operators_eq.
      destruct ts as [|[] r]; try exact H. destruct (Nat.eqb (level o0) L); [|exact H].
      apply obind_Some in H as ([v r'] & H1 & H2). apply IP in H1. rewrite H1. cbn [obind]. now apply IO.
    - intros ts o H. rewrite arguments_eq in H. rewrite arguments_eq.
      apply obind_Some in H as ([v r] & H1 & H2). apply IP in H1. rewrite H1. cbn [obind].
      destruct r as [|[] r]; try exact H2. apply obind_Some in H2 as ([vs r'] & H3 & H4). apply IA in H3. rewrite H3. exact H4.
  Qed.
  Lemma reads_at f ts v : parse f 7 ts = Some (v, []) -> reads V name var apply call truth ts v.
  Proof. intro H. exists f. intros g L. induction L as [|g L IH]; [exact H|]. now apply mono. Qed.
End Mono.
