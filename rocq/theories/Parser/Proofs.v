From Verif.Common Require Import Prelude.
From Verif.Parser Require Import Model Spec.

Lemma erase_app A (p : list A) a q : erase (List.length p) (p ++ a :: q) = p ++ q.
Proof. induction p as [|b p IH]; simpl; [reflexivity|now rewrite IH]. Qed.
Lemma put_app A (p : list A) a b q : put (List.length p) b (p ++ a :: q) = p ++ b :: q.
Proof. induction p as [|c p IH]; simpl; [reflexivity|now rewrite IH]. Qed.
Lemma nth_app A (p : list A) a q : nth_error (p ++ a :: q) (List.length p) = Some a.
Proof. rewrite nth_error_app2 by lia. now rewrite Nat.sub_diag. Qed.
Lemma nth_end A (p : list A) : nth_error (p ++ []) (List.length p) = None.
Proof. apply nth_error_None. rewrite app_nil_r. lia. Qed.

Section Proofs.
  Variable X : Type.
  Variable endpoint : str -> X.
  Variable unary : str -> option (X -> X).
  Variables (pow div mul sub add gt lt and_ pack : X -> X -> X).
  Notation binary := (binary X pow div mul sub add gt lt and_ pack).
  Notation is_binary := (is_binary X pow div mul sub add gt lt and_ pack).
  Notation parseTokens := (parseTokens X endpoint unary pow div mul sub add gt lt and_ pack).
  Notation collect := (collect X endpoint unary pow div mul sub add gt lt and_ pack).
  Notation binary_loop := (binary_loop X).
  Notation processBinaryOperators := (processBinaryOperators X).
  Notation processUnaryOperators := (processUnaryOperators X unary).

  (** ** One pass over a chain of operands *)
  Definition chain : Type := X * list (str * X).
  Fixpoint pass (o : str) (f : X -> X -> X) (x : X) (l : list (str * X)) : chain :=
    match l with
    | [] => (x, [])
    | (t, y) :: r => if str_eqb t o then pass o f (f x y) r else let '(z, r') := pass o f y r in (x, (t, z) :: r')
    end.
  Lemma pass_length o f l : forall x, List.length (snd (pass o f x l)) <= List.length l.
  Proof.
    induction l as [|[t y] l IH]; intro x; simpl; [lia|]. destruct (str_eqb t o).
    - specialize (IH (f x y)). lia.
    - specialize (IH y). destruct (pass o f y l). simpl in *. lia.
  Qed.
  Lemma binary_loop_pass o f l : forall fuel po px x, List.length po = List.length px -> List.length l < fuel ->
    binary_loop fuel o f (List.length po) (po ++ map fst l) (px ++ x :: map snd l) =
    Ok (po ++ map fst (snd (pass o f x l)), px ++ fst (pass o f x l) :: map snd (snd (pass o f x l))).
  Proof.
    induction l as [|[t y] l IH]; intros [|fuel] po px x E F; simpl in F; try lia; cbn [Model.binary_loop map fst snd].
    - now rewrite nth_end.
    - rewrite nth_app. cbn [pass]. destruct (str_eqb t o) eqn:Et; cbn [negb].
      + rewrite E, nth_app. change (x :: y :: map snd l) with ([x] ++ y :: map snd l). rewrite app_assoc.
        assert (Hs : S (List.length px) = List.length (px ++ [x])) by (rewrite app_length; simpl; lia).
        rewrite Hs, nth_app. rewrite <- E, erase_app. rewrite <- app_assoc. cbn [app]. rewrite E, put_app.
        change (f x y :: y :: map snd l) with ([f x y] ++ y :: map snd l). rewrite app_assoc.
        replace (List.length (px ++ [x])) with (List.length (px ++ [f x y])) by (now rewrite !app_length).
        rewrite erase_app, <- app_assoc. cbn [app]. rewrite <- E. apply IH; [exact E|lia].
      + destruct (pass o f y l) as [z r'] eqn:Ep. cbn [fst snd map].
        change (t :: map fst l) with ([t] ++ map fst l). change (x :: y :: map snd l) with ([x] ++ y :: map snd l). rewrite !app_assoc.
        assert (Hs : S (List.length po) = List.length (po ++ [t])) by (rewrite app_length; simpl; lia).
        rewrite Hs. rewrite IH; [|rewrite !app_length; simpl; lia|lia]. rewrite Ep. cbn [fst snd]. rewrite <- !app_assoc. reflexivity.
  Qed.
  Fixpoint passes (fs : list (str * (X -> X -> X))) (c : chain) : chain :=
    match fs with [] => c | (o, f) :: t => passes t (pass o f (fst c) (snd c)) end.
  Lemma process_passes fs : forall c, processBinaryOperators fs (map fst (snd c)) (fst c :: map snd (snd c)) =
    Ok (map fst (snd (passes fs c)), fst (passes fs c) :: map snd (snd (passes fs c))).
  Proof.
    induction fs as [|[o f] fs IH]; intros [x l]; cbn [Model.processBinaryOperators passes fst snd]; [reflexivity|].
    pose proof (binary_loop_pass o f l (S (List.length (map fst l))) [] [] x eq_refl) as H. cbn [app List.length] in H.
    rewrite H by (rewrite map_length; lia). cbn [bind]. apply IH.
  Qed.
  Lemma passes_app fs gs c : passes (fs ++ gs) c = passes gs (passes fs c).
  Proof. revert c. induction fs as [|[o f] fs IH]; intro c; [reflexivity|]. cbn [app passes]. apply IH. Qed.
  Definition join (c : chain) (o : str) (d : chain) : chain := (fst c, snd c ++ (o, fst d) :: snd d).
  Lemma pass_join p f o : o <> p -> forall l x d, pass p f x (l ++ (o, fst d) :: snd d) = join (pass p f x l) o (pass p f (fst d) (snd d)).
  Proof.
    intro N. induction l as [|[t y] l IH]; intros x [y0 m]; cbn [app fst snd pass].
    - assert (E : str_eqb o p = false) by now apply str_eqb_neq. rewrite E. destruct (pass p f y0 m). reflexivity.
    - destruct (str_eqb t p); [apply (IH _ (y0, m))|]. pose proof (IH y (y0, m)) as IH'. cbn [fst snd] in IH'. rewrite IH'. unfold join. cbn [fst snd].
      destruct (pass p f y l). reflexivity.
  Qed.
  Lemma passes_join fs o : (forall p f, In (p, f) fs -> o <> p) -> forall c d, passes fs (join c o d) = join (passes fs c) o (passes fs d).
  Proof.
    induction fs as [|[p f] fs IH]; intros N c d; [reflexivity|]. cbn [passes].
    assert (E : pass p f (fst (join c o d)) (snd (join c o d)) = join (pass p f (fst c) (snd c)) o (pass p f (fst d) (snd d))).
    { apply pass_join. apply (N p f). now left. }
    rewrite E. apply IH. intros q g H. apply (N q g). now right.
  Qed.

  (** ** The levels *)
  Variables (levels : list (list str)) (op : str -> X -> X -> X) (groups : list (list (str * (X -> X -> X)))).
  Definition leftfold (x : X) (l : list (str * X)) : X := fold_left (fun a p => op (fst p) a (snd p)) l x.
  Hypothesis G1 : List.concat groups = binary.
  Hypothesis G2 : List.length groups = List.length levels.
  Hypothesis G3 : forall L os g, nth_error levels L = Some os -> nth_error groups L = Some g ->
    forall l x, Forall (fun p => In (fst p) os) l -> passes g (x, l) = (leftfold x l, []).
  Hypothesis G4 : forall L os o L' g, nth_error levels L = Some os -> In o os -> L' < L -> nth_error groups L' = Some g -> ~ In o (map fst g).
  Hypothesis G5 : forall o, In o (names levels) <-> is_binary o = true.

  Inductive flat : nat -> chain -> X -> Prop :=
  | FUnit v : flat 0 (v, []) v
  | FUp L c v : flat L c v -> flat (S L) c v
  | FBin L os o c d x y : nth_error levels L = Some os -> In o os -> flat (S L) c x -> flat L d y -> flat (S L) (join c o d) (op o x y).

  Lemma leftfold_snoc x l o y : leftfold x (l ++ [(o, y)]) = op o (leftfold x l) y.
  Proof. unfold leftfold. now rewrite fold_left_app. Qed.
  Lemma flat_reduces L : forall c v, flat L c v -> L <= List.length levels -> passes (List.concat (firstn L groups)) c = (v, []).
  Proof.
    induction L as [|L IH]; intros c v H HL.
    - inversion H; subst. reflexivity.
    - destruct (nth_error levels L) as [os|] eqn:Eos; [|apply nth_error_None in Eos; lia].
      destruct (nth_error groups L) as [g|] eqn:Eg; [|apply nth_error_None in Eg; lia].
      assert (K : exists x0 l, passes (List.concat (firstn L groups)) c = (x0, l) /\ Forall (fun p => In (fst p) os) l /\ leftfold x0 l = v).
      { remember (S L) as M. induction H as [w|M c w H _|M os' o c d x y En Ho H1 IH1 H2 _]; [discriminate| |].
        - injection HeqM as ->. exists w, []. split; [apply IH; [exact H|lia]|]. split; [constructor|reflexivity].
        - injection HeqM as ->. rewrite Eos in En. injection En as <-. destruct (IH1 eq_refl HL) as (x0 & l & E & F & V).
          exists x0, (l ++ [(o, y)]). split; [|split].
          + rewrite passes_join; [rewrite E, (IH _ _ H2) by lia; reflexivity|].
            intros p f Hin Heq. subst p. apply in_concat in Hin as (g' & Hg & Hin). apply In_nth_error in Hg as (L' & Hg).
            assert (HL' : L' < L). { assert (Hlt : L' < List.length (firstn L groups)) by (apply nth_error_Some; congruence). rewrite firstn_length in Hlt. lia. }
            apply (G4 L os o L' g' Eos Ho HL').
            * clear - Hg HL'. revert L' Hg HL'. generalize groups. induction L as [|L IHL]; intros gs L' Hg HL'; [lia|].
              destruct gs as [|a gs]; [destruct L'; discriminate|]. destruct L' as [|L']; [exact Hg|]. simpl in *. apply IHL; [exact Hg|lia].
            * apply in_map_iff. now exists (o, f).
          + apply Forall_app. split; [exact F|]. now constructor.
          + now rewrite leftfold_snoc, V. }
      destruct K as (x0 & l & E & F & V).
      assert (Ef : firstn (S L) groups = firstn L groups ++ [g]).
      { clear - Eg. revert groups Eg. induction L as [|L IH]; intros [|a gs] Eg; try discriminate; simpl in *.
        - now injection Eg as ->.
        - f_equal. now apply IH. }
      rewrite Ef, concat_app, passes_app, E. cbn [List.concat app]. rewrite app_nil_r, (G3 L os g Eos Eg l x0 F). now rewrite V.
  Qed.

  (** ** Unary functions *)
  Definition unit_ : Type := option (str * (X -> X)) * X.
  Definition uval (u : unit_) : X := match fst u with Some (_, g) => g (snd u) | None => snd u end.
  Definition uops (u : unit_) : list str := match fst u with Some (f, _) => [f] | None => [] end.
  Definition uok (u : unit_) : Prop := match fst u with Some (f, g) => unary f = Some g | None => True end.
  Definition uchain : Type := unit_ * list (str * unit_).
  Definition raw_ops (c : uchain) : list str := uops (fst c) ++ flat_map (fun p => fst p :: uops (snd p)) (snd c).
  Definition raw_xs (c : uchain) : list X := snd (fst c) :: map (fun p => snd (snd p)) (snd c).
  Definition values (c : uchain) : chain := (uval (fst c), map (fun p => (fst p, uval (snd p))) (snd c)).
  Definition cok (c : uchain) : Prop := uok (fst c) /\ Forall (fun p => unary (fst p) = None /\ uok (snd p)) (snd c).

  Lemma unary_loop l : forall fuel po px u, List.length po = List.length px -> List.length (raw_ops (u, l)) < fuel -> cok (u, l) ->
    processUnaryOperators fuel (List.length po) (po ++ raw_ops (u, l)) (px ++ raw_xs (u, l)) =
    Ok (po ++ map fst (snd (values (u, l))), px ++ fst (values (u, l)) :: map snd (snd (values (u, l)))).
  Proof.
    assert (Plain : forall l, (forall fuel po px u, List.length po = List.length px -> List.length (raw_ops ((None, uval u), l)) < fuel -> cok ((None, uval u), l) ->
      processUnaryOperators fuel (List.length po) (po ++ raw_ops ((None, uval u), l)) (px ++ raw_xs ((None, uval u), l)) =
      Ok (po ++ map fst (snd (values (u, l))), px ++ fst (values (u, l)) :: map snd (snd (values (u, l))))) ->
      forall fuel po px u, List.length po = List.length px -> List.length (raw_ops (u, l)) < fuel -> cok (u, l) ->
      processUnaryOperators fuel (List.length po) (po ++ raw_ops (u, l)) (px ++ raw_xs (u, l)) =
      Ok (po ++ map fst (snd (values (u, l))), px ++ fst (values (u, l)) :: map snd (snd (values (u, l))))).
    { intros l' H fuel po px [[[f g]|] x] E F [U1 U2].
      - destruct fuel as [|fuel]; [lia|]. cbn [Model.processUnaryOperators]. unfold raw_ops. cbn [fst uops app]. rewrite nth_app.
        unfold uok in U1. cbn [fst] in U1. rewrite U1. rewrite E. unfold raw_xs at 1. cbn [fst snd]. rewrite nth_app. unfold raw_xs. cbn [fst snd]. rewrite put_app.
        rewrite <- E, erase_app. apply (H fuel po px (Some (f, g), x)); [exact E| |].
        + unfold raw_ops in F |- *. cbn in F |- *. lia.
        + split; [exact I|exact U2].
      - apply (H fuel po px (None, x)); [exact E|exact F|]. split; [exact I|exact U2]. }
    induction l as [|[t v] l IH]; apply Plain; intros fuel po px u E F C.
    - destruct fuel as [|fuel]; [lia|]. cbn [Model.processUnaryOperators]. unfold raw_ops. cbn [fst snd uops flat_map app]. rewrite nth_end. reflexivity.
    - destruct fuel as [|fuel]; [lia|]. cbn [Model.processUnaryOperators]. unfold raw_ops in F |- *. cbn [fst snd uops flat_map app] in F |- *. rewrite nth_app.
      destruct C as [_ C]. inversion C as [|? ? [C1 C2] C3]; subst. cbn [fst snd] in C1, C2. rewrite C1.
      unfold raw_xs. cbn [fst snd map]. 
      change (t :: uops v ++ flat_map (fun p => fst p :: uops (snd p)) l) with ([t] ++ raw_ops (v, l)).
      change (uval u :: snd v :: map (fun p => snd (snd p)) l) with ([uval u] ++ raw_xs (v, l)). rewrite !app_assoc.
      assert (Hs : S (List.length po) = List.length (po ++ [t])) by (rewrite app_length; simpl; lia). rewrite Hs.
      rewrite IH; [|rewrite !app_length; simpl; lia| |split; assumption].
      + rewrite <- !app_assoc. reflexivity.
      + unfold raw_ops. cbn [fst snd]. cbn [List.length] in F. lia.
  Qed.

  (** ** Collecting the tokens *)
  Definition C ts out := exists f0, forall f, f0 <= f -> collect f ts = Ok out.
  Definition PT ts x := exists f0, forall f, f0 <= f -> parseTokens f ts = Ok x.
  Notation denotes := (denotes X endpoint unary levels op).
  Hypothesis Hproper : forall f g, unary f = Some g -> ~ In f (names levels) /\ exists c r, f = c :: r /\ c <> "("%char /\ c <> ")"%char.

  Lemma collect_S f ts : collect (S f) ts =
        match ts with
        | [] => Ok ([], [])
        | t :: r =>
            match first t with
            | None => Throw
            | Some c =>
                if Ascii.eqb c "(" then
                  bind (findMatchingBracket r) (fun '(inner, rest) =>
                  bind (parseTokens f inner) (fun x =>
                  bind (collect f rest) (fun '(ops, xs) => Ok (ops, x :: xs))))
                else if is_binary t || (match unary t with Some _ => true | None => false end)
                then bind (collect f r) (fun '(ops, xs) => Ok (t :: ops, xs))
                else bind (collect f r) (fun '(ops, xs) => Ok (ops, endpoint t :: xs))
            end
        end.
  Proof. reflexivity. Qed.
  Lemma parse_S f ts : parseTokens (S f) ts = bind (collect f ts) (fun '(ops, xs) =>
        bind (processUnaryOperators (S (List.length ops)) 0 ops xs) (fun '(ops', xs') =>
        bind (processBinaryOperators binary ops' xs') (fun '(_, xs'') => of_opt (hd_error xs'')))).
  Proof. reflexivity. Qed.

  Lemma binary_first o : is_binary o = true -> exists c r, o = c :: r /\ c <> "("%char /\ c <> ")"%char.
  Proof.
    unfold Model.is_binary. intro H. apply existsb_exists in H as ([p f] & Hin & E). cbn [fst] in E. apply str_eqb_eq in E. subst p.
    unfold Model.binary in Hin. simpl in Hin. repeat (destruct Hin as [Hin|Hin]; [injection Hin as <- _; eexists; eexists; repeat split; discriminate|]). destruct Hin.
  Qed.
  Lemma C_nil : C [] ([], []).
  Proof. exists 1. intros [|f] L; [lia|reflexivity]. Qed.
  Lemma C_op t r ops xs : (exists c s, t = c :: s /\ c <> "("%char /\ c <> ")"%char) -> (is_binary t = true \/ exists g, unary t = Some g) -> C r (ops, xs) -> C (t :: r) (t :: ops, xs).
  Proof.
    intros (c & s & -> & N & _) H [f0 Hc]. exists (S f0). intros [|f] L; [lia|]. rewrite collect_S. cbn [first].
    destruct (Ascii.eqb_spec c "("); [contradiction|]. rewrite Hc by lia.
    assert (E : (is_binary (c :: s) || match unary (c :: s) with Some _ => true | None => false end = true)%bool).
    { destruct H as [-> | [g ->]]; [reflexivity|apply orb_true_r]. }
    rewrite E. reflexivity.
  Qed.
  Lemma C_atom t r ops xs : atom X unary levels t -> C r (ops, xs) -> C (t :: r) (ops, endpoint t :: xs).
  Proof.
    intros (U & N & c & s & -> & N1 & _) [f0 Hc]. exists (S f0). intros [|f] L; [lia|]. rewrite collect_S. cbn [first].
    destruct (Ascii.eqb_spec c "("); [contradiction|]. rewrite Hc by lia. rewrite U.
    destruct (is_binary (c :: s)) eqn:E; [|reflexivity]. apply G5 in E. contradiction.
  Qed.
  Lemma matching_plain t d r : (exists c s, t = c :: s /\ c <> "("%char /\ c <> ")"%char) -> 0 < d ->
    matching d (t :: r) = bind (matching d r) (fun '(a, b) => Ok (t :: a, b)).
  Proof.
    intros (c & s & -> & N1 & N2) H. cbn [matching first]. destruct (Ascii.eqb_spec c "("); [contradiction|]. destruct (Ascii.eqb_spec c ")"); [contradiction|].
    destruct d; [lia|]. reflexivity.
  Qed.
  Lemma bind_assoc (r : res (list str * list str)) (a b : list str) :
    bind (bind r (fun '(x, y) => Ok (b ++ x, y))) (fun '(x, y) => Ok (a ++ x, y)) = bind r (fun '(x, y) => Ok ((a ++ b) ++ x, y)).
  Proof. destruct r as [[x y]| | |]; cbn [bind]; try reflexivity. now rewrite app_assoc. Qed.
  Lemma matching_app L ts x : denotes L ts x -> forall d rest, 0 < d ->
    matching d (ts ++ rest) = bind (matching d rest) (fun '(a, b) => Ok (ts ++ a, b)).
  Proof.
    assert (Par : forall ts, (forall d rest, 0 < d -> matching d (ts ++ rest) = bind (matching d rest) (fun '(a, b) => Ok (ts ++ a, b))) ->
      forall d rest, 0 < d -> matching d ((S_ "(" :: ts ++ [S_ ")"]) ++ rest) = bind (matching d rest) (fun '(a, b) => Ok ((S_ "(" :: ts ++ [S_ ")"]) ++ a, b))).
    { intros ts' IH d rest Hd. change (matching d ((S_ "(" :: ts' ++ [S_ ")"]) ++ rest)) with (bind (matching (S d) ((ts' ++ [S_ ")"]) ++ rest)) (fun '(a, b) => Ok (S_ "(" :: a, b))).
      rewrite <- app_assoc. rewrite IH by lia. cbn [app].
      assert (E : matching (S d) (S_ ")" :: rest) = bind (matching d rest) (fun '(a, b) => Ok (S_ ")" :: a, b))).
      { destruct d; [lia|]. reflexivity. }
      rewrite E. destruct (matching d rest) as [[a b]| | |]; cbn [bind]; try reflexivity. now rewrite <- !app_assoc. }
    induction 1 as [t A|ts x H IH|f g t U A|f g ts x U H IH|L ts x H IH|L os o a b x y En Ho H1 IH1 H2 IH2]; intros d rest Hd.
    - cbn [app]. rewrite matching_plain; [reflexivity|apply A|exact Hd].
    - now apply Par.
    - cbn [app]. rewrite matching_plain; [|apply (Hproper _ _ U)|exact Hd]. rewrite matching_plain; [|apply A|exact Hd].
      destruct (matching d rest) as [[? ?]| | |]; reflexivity.
    - change (matching d ((f :: S_ "(" :: ts ++ [S_ ")"]) ++ rest)) with (matching d (f :: ((S_ "(" :: ts ++ [S_ ")"]) ++ rest))).
      rewrite matching_plain; [|apply (Hproper _ _ U)|exact Hd]. rewrite Par by assumption. destruct (matching d rest) as [[? ?]| | |]; reflexivity.
    - now apply IH.
    - rewrite <- app_assoc. rewrite IH1 by exact Hd. cbn [app]. rewrite matching_plain; [| |exact Hd].
      + rewrite IH2 by exact Hd. destruct (matching d rest) as [[? ?]| | |]; cbn [bind]; try reflexivity. now rewrite <- app_assoc.
      + apply binary_first, G5. unfold names. apply in_concat. exists os. split; [now apply nth_error_In in En|exact Ho].
  Qed.
  Lemma C_paren ts x r ops xs : (forall d rest, 0 < d -> matching d (ts ++ rest) = bind (matching d rest) (fun '(a, b) => Ok (ts ++ a, b))) ->
    PT ts x -> C r (ops, xs) -> C ((S_ "(" :: ts ++ [S_ ")"]) ++ r) (ops, x :: xs).
  Proof.
    intros M [f1 H1] [f2 H2]. exists (S (f1 + f2)). intros [|f] L; [lia|].
    change ((S_ "(" :: ts ++ [S_ ")"]) ++ r) with (S_ "(" :: ((ts ++ [S_ ")"]) ++ r)). rewrite collect_S. change (first (S_ "(")) with (Some "("%char). cbv iota.
    change (Ascii.eqb "(" "(") with true. cbv iota.
    assert (E : findMatchingBracket ((ts ++ [S_ ")"]) ++ r) = Ok (ts, r)).
    { unfold findMatchingBracket. destruct ((ts ++ [S_ ")"]) ++ r) eqn:En; [destruct ts; discriminate|]. rewrite <- En. clear En.
      rewrite <- app_assoc. rewrite M by lia. cbn [app]. change (matching 1 (S_ ")" :: r)) with (Ok ([] : list str, r)). cbn [bind]. now rewrite app_nil_r. }
    rewrite E. cbn [bind]. rewrite H1 by lia. cbn [bind]. rewrite H2 by lia. reflexivity.
  Qed.

  (** What a text of level [L] contributes. *)
  Definition contributes L ts x := exists c, cok c /\ flat L (values c) x /\
    forall r ops xs, C r (ops, xs) -> C (ts ++ r) (raw_ops c ++ ops, raw_xs c ++ xs).
  Lemma finish ts x : contributes (List.length levels) ts x -> PT ts x.
  Proof.
    intros ([u l] & K & F & H). destruct (H [] [] [] C_nil) as [f0 Hc]. exists (S f0). intros [|f] L; [lia|].
    rewrite parse_S. rewrite app_nil_r in Hc. rewrite Hc by lia. rewrite !app_nil_r. cbn [bind].
    pose proof (unary_loop l (S (List.length (raw_ops (u, l)))) [] [] u eq_refl (le_n _) K) as HU. cbn [app List.length] in HU. rewrite HU. cbn [bind].
    rewrite process_passes. cbn [bind]. rewrite <- G1.
    assert (E : groups = firstn (List.length levels) groups) by (rewrite <- G2; symmetry; apply firstn_all).
    rewrite E, (flat_reduces _ _ _ F (le_n _)). reflexivity.
  Qed.
  Lemma denotes_contributes L ts x : denotes L ts x -> contributes L ts x.
  Proof.
    induction 1 as [t A|ts x H IH|f g t U A|f g ts x U H IH|L ts x H IH|L os o a b x y En Ho H1 IH1 H2 IH2].
    - exists ((None, endpoint t), []). split; [split; [exact I|constructor]|]. split; [constructor|]. intros r ops xs Hr. cbn. now apply C_atom.
    - exists ((None, x), []). split; [split; [exact I|constructor]|]. split; [constructor|]. intros r ops xs Hr.
      apply C_paren; [exact (matching_app _ _ _ H)|now apply finish|exact Hr].
    - exists ((Some (f, g), endpoint t), []). split; [split; [exact U|constructor]|]. split; [constructor|]. intros r ops xs Hr.
      change ([f; t] ++ r) with (f :: t :: r). cbn [raw_ops fst snd uops app flat_map]. apply C_op; [apply (Hproper _ _ U)|right; now exists g|]. now apply C_atom.
    - exists ((Some (f, g), x), []). split; [split; [exact U|constructor]|]. split; [constructor|]. intros r ops xs Hr.
      change ((f :: S_ "(" :: ts ++ [S_ ")"]) ++ r) with (f :: ((S_ "(" :: ts ++ [S_ ")"]) ++ r)). cbn [raw_ops fst snd uops app flat_map].
      apply C_op; [apply (Hproper _ _ U)|right; now exists g|]. apply (C_paren ts x r ops xs); [exact (matching_app _ _ _ H)|now apply finish|exact Hr].
    - destruct IH as (c & K & F & Hc). exists c. split; [exact K|]. split; [now constructor|exact Hc].
    - destruct IH1 as (c & Kc & Fc & Hc). destruct IH2 as (d & Kd & Fd & Hd).
      assert (Bo : is_binary o = true).
      { apply G5. unfold names. apply in_concat. exists os. split; [now apply nth_error_In in En|exact Ho]. }
      exists (fst c, snd c ++ (o, fst d) :: snd d). split; [|split].
      + destruct Kc as [K1 K2], Kd as [K3 K4]. split; [exact K1|]. cbn [snd]. apply Forall_app. split; [exact K2|]. constructor; [|exact K4].
        split; [|exact K3]. cbn [fst]. destruct (unary o) as [g|] eqn:E; [|reflexivity]. destruct (Hproper _ _ E) as [N _]. apply G5 in Bo. contradiction.
      + replace (values (fst c, snd c ++ (o, fst d) :: snd d)) with (join (values c) o (values d)).
        * eapply FBin; eauto.
        * unfold join, values. cbn [fst snd]. now rewrite map_app.
      + intros r ops xs Hr. rewrite <- app_assoc. cbn [app].
        replace (raw_ops (fst c, snd c ++ (o, fst d) :: snd d) ++ ops) with (raw_ops c ++ (o :: (raw_ops d ++ ops))).
        replace (raw_xs (fst c, snd c ++ (o, fst d) :: snd d) ++ xs) with (raw_xs c ++ (raw_xs d ++ xs)).
        * apply Hc. apply C_op; [now apply binary_first|now left|]. now apply Hd.
        * unfold raw_xs. cbn [fst snd]. rewrite map_app. cbn [map app]. f_equal. now rewrite <- app_assoc.
        * unfold raw_ops. cbn [fst snd]. rewrite flat_map_app. cbn [flat_map]. cbn [app fst snd]. rewrite <- !app_assoc. cbn [app]. rewrite <- app_assoc. reflexivity.
  Qed.
  Lemma parse_denotes ts x : denotes (List.length levels) ts x -> PT ts x.
  Proof. intro H. now apply finish, denotes_contributes. Qed.
End Proofs.


(** ** The two grammars *)
Section Instances.
  Variable X : Type.
  Variable endpoint : str -> X.
  Variable unary : str -> option (X -> X).
  Variables (pow div mul sub add gt lt and_ pack : X -> X -> X).
  Notation binary := (binary X pow div mul sub add gt lt and_ pack).
  Notation is_binary := (is_binary X pow div mul sub add gt lt and_ pack).
  Notation op := (operation pow div mul sub add gt lt and_ pack).
  Hypothesis Hproper : proper_functions unary.

  Lemma names_binary o : In o (names documented) <-> is_binary o = true.
  Proof.
    split.
    - intro H. cbn in H. repeat (destruct H as [H|H]; [subst o; reflexivity|]). destruct H.
    - unfold Model.is_binary. intro H. apply existsb_exists in H. revert H.
      intros ([p f] & Hin & E). cbn [fst] in E. apply str_eqb_eq in E. subst p. cbn in Hin.
      repeat (destruct Hin as [Hin|Hin]; [injection Hin as <- _; cbn; tauto|]). destruct Hin.
  Qed.
  Lemma single o f : op o = f -> forall l x, Forall (fun p : str * X => In (fst p) [o]) l ->
    passes X [(o, f)] (x, l) = (leftfold X op x l, []).
  Proof.
    intros Ho. induction l as [|[t y] l IH]; intros x H; [reflexivity|]. inversion H as [|? ? [E|[]] H']; subst. cbn [fst passes pass snd].
    rewrite str_eqb_refl. cbn [passes fst snd] in IH. unfold leftfold. cbn [fold_left fst snd]. apply (IH _ H').
  Qed.
  (** An operator [hi] processed before [lo] of the same level. *)
  Lemma pass_absorb hi (fh fl : X -> X -> X) : (forall a b c, fh (fl a b) c = fl a (fh b c)) -> forall l a y,
    pass X hi fh (fl a y) l = (fl a (fst (pass X hi fh y l)), snd (pass X hi fh y l)).
  Proof.
    intro Law. induction l as [|[t z] l IH]; intros a y; [reflexivity|]. cbn [pass]. destruct (str_eqb t hi).
    - rewrite Law. apply IH.
    - destruct (pass X hi fh z l). reflexivity.
  Qed.
  Lemma pair hi lo fh fl os : hi <> lo -> op hi = fh -> op lo = fl -> (forall t, In t os -> t = hi \/ t = lo) -> (forall a b c, fh (fl a b) c = fl a (fh b c)) ->
    forall l x, Forall (fun p : str * X => In (fst p) os) l -> passes X [(hi, fh); (lo, fl)] (x, l) = (leftfold X op x l, []).
  Proof.
    intros N Hh Hl Hos Law. cbn [passes fst snd]. induction l as [|[t y] l IH]; intros x H; [reflexivity|].
    inversion H as [|? ? E H']; subst. cbn [fst] in E. cbn [pass]. destruct (str_eqb_spec t hi) as [-> | Nt].
    - rewrite IH by exact H'. unfold leftfold. cbn [fold_left fst snd]. reflexivity.
    - destruct (Hos _ E) as [-> | ->]; [contradiction|]. pose proof (IH (op lo x y) H') as I1. rewrite (pass_absorb hi _ _ Law) in I1. cbn [fst snd] in I1.
      destruct (pass X hi (op hi) y l) as [z r]. cbn [fst snd] in *. cbn [pass]. rewrite str_eqb_refl. rewrite I1. unfold leftfold. reflexivity.
  Qed.

  Definition groups_documented : list (list (str * (X -> X -> X))) := map (fun p => [p]) binary.
  Definition groups_conventional : list (list (str * (X -> X -> X))) :=
    [[(S_ "^", pow)]; [(S_ "/", div); (S_ "*", mul)]; [(S_ "-", sub); (S_ "+", add)]; [(S_ ">", gt)]; [(S_ "<", lt)]; [(S_ "&&", and_)]; [(S_ ",", pack)]].

  Lemma parse_documented ts x : denotes X endpoint unary documented op 9 ts x ->
    exists f0, forall f, f0 <= f -> parseTokens X endpoint unary pow div mul sub add gt lt and_ pack f ts = Ok x.
  Proof.
    apply (parse_denotes X endpoint unary pow div mul sub add gt lt and_ pack documented op groups_documented); try reflexivity.
    - intros L os g H1 H2. do 9 (destruct L as [|L]; [injection H1 as <-; injection H2 as <-; apply single; reflexivity|]). destruct L; discriminate.
    - intros L os o L' g H1 H2 HL H3. assert (L < 9) by (change 9 with (List.length documented); apply nth_error_Some; congruence).
      do 9 (destruct L as [|L]; [injection H1 as <-; destruct H2 as [<-|[]];
        do 9 (destruct L' as [|L']; [try lia; injection H3 as <-; intros [E|[]]; discriminate|]); lia|]). lia.
    - exact names_binary.
    - exact Hproper.
  Qed.
  Lemma names_same o : In o (names conventional) <-> In o (names documented).
  Proof. cbn. tauto. Qed.
  Lemma parse_conventional : (forall a b c, div (mul a b) c = mul a (div b c)) -> (forall a b c, sub (add a b) c = add a (sub b c)) ->
    forall ts x, denotes X endpoint unary conventional op 7 ts x ->
    exists f0, forall f, f0 <= f -> parseTokens X endpoint unary pow div mul sub add gt lt and_ pack f ts = Ok x.
  Proof.
    intros Law1 Law2 ts x.
    apply (parse_denotes X endpoint unary pow div mul sub add gt lt and_ pack conventional op groups_conventional); try reflexivity.
    - intros L os g H1 H2.
      destruct L as [|L]; [injection H1 as <-; injection H2 as <-; apply single; reflexivity|].
      destruct L as [|L]; [injection H1 as <-; injection H2 as <-; apply pair; try reflexivity; [discriminate|cbn; intuition congruence|exact Law1]|].
      destruct L as [|L]; [injection H1 as <-; injection H2 as <-; apply pair; try reflexivity; [discriminate|cbn; intuition congruence|exact Law2]|].
      do 4 (destruct L as [|L]; [injection H1 as <-; injection H2 as <-; apply single; reflexivity|]). destruct L; discriminate.
    - intros L os o L' g H1 H2 HL H3. assert (L < 7) by (change 7 with (List.length conventional); apply nth_error_Some; congruence).
      do 7 (destruct L as [|L]; [injection H1 as <-; cbn [In] in H2;
        do 7 (destruct L' as [|L']; [try lia; injection H3 as <-; cbn [In map fst]; intuition (subst; discriminate)|]); lia|]). lia.
    - intro o. rewrite names_same. apply names_binary.
    - intros f g H. destruct (Hproper f g H) as [H1 H2]. split; [|exact H2]. intro H3. apply names_same in H3. contradiction.
  Qed.
End Instances.
