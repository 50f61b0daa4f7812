(** Proofs about the text form of BinDT. *)
From Verif.Binning Require Export Spec.
From Verif.Utilities Require Import Model Spec Proofs.
Local Open Scope nat_scope.

Section Text.
  Variables (shown : nat -> str) (stoi : str -> option nat) (showd : Q -> str) (stod : str -> option Q).
  Notation serialize_node := (serialize_node shown showd).
  Notation read_line := (read_line stoi stod).
  Notation read_lines := (read_lines stoi stod).
  Notation good := (readable_obj shown stoi showd stod).

  Definition words (o : obj) : list str :=
    match o with OEnd a v b => [a; shown v; shown b] | OCut a i v l r => [a; shown i; showd v; addr l; addr r] end.
  Fixpoint lines (o : obj) : list str :=
    join sp (words o) :: match o with OEnd _ _ _ => [] | OCut _ _ _ l r => lines l ++ lines r end.

  Lemma good_addr o : good o -> word (addr o).
  Proof. destruct o; cbn; tauto. Qed.
  Lemma good_words o : good o -> Forall word (words o).
  Proof.
    destruct o; cbn [readable_obj words].
    - intros (A & B & C & _). repeat (constructor; [assumption|]). constructor.
    - intros (A & B & C & _ & _ & L & R). repeat (constructor; [try assumption; now apply good_addr|]). constructor.
  Qed.
  Lemma word_item s : word s -> ~ In sp s /\ ~ blank s.
  Proof.
    intros (A & B & C & D). split; [exact B|]. intros [E|[E|[E|E]]]; subst; try congruence.
    - apply B. now left. - apply C. now left.
  Qed.
  Lemma in_join c d l : In c (join d l) -> c = d \/ exists w, In w l /\ In c w.
  Proof.
    induction l as [|w l IH]; [intros []|]. destruct l as [|x l]; cbn [join].
    - intro H. right. exists w. split; [now left|exact H].
    - intro H. apply in_app_or in H as [H|[H|H]]; [right; exists w; split; [now left|exact H]|now left|].
      destruct (IH H) as [E|(w' & K1 & K2)]; [now left|]. right. exists w'. split; [now right|exact K2].
  Qed.
  Lemma line_no_nl o : good o -> ~ In nl (join sp (words o)).
  Proof.
    intros G H. apply in_join in H as [H|(w & H1 & H2)]; [discriminate|].
    pose proof (proj1 (Forall_forall _ _) (good_words o G) w H1) as (_ & _ & N & _). contradiction.
  Qed.
  Lemma getlines_node : forall o s, good o -> getlines nl [] (serialize_node o ++ s) = lines o ++ getlines nl [] s.
  Proof.
    assert (one : forall o s, good o -> getlines nl [] (join sp (words o) ++ nl :: s) = join sp (words o) :: getlines nl [] s).
    { intros o s G. rewrite getlines_run by now apply line_no_nl. cbn [app getlines]. rewrite Ascii.eqb_refl. reflexivity. }
    induction o as [a v b|a i v l IHl r IHr]; intros s G.
    - change (lines (OEnd a v b) ++ getlines nl [] s) with (join sp (words (OEnd a v b)) :: getlines nl [] s).
      rewrite <- (one (OEnd a v b) s G). f_equal. cbn [Model.serialize_node words join]. repeat (rewrite <- !app_assoc; cbn [app]). reflexivity.
    - cbn [lines]. cbn [app]. pose proof G as (_ & _ & _ & _ & _ & Gl & Gr).
      rewrite <- app_assoc, <- (IHr s Gr), <- (IHl _ Gl), <- (one (OCut a i v l r) _ G). f_equal.
      cbn [Model.serialize_node words join]. repeat (rewrite <- !app_assoc; cbn [app]). reflexivity.
  Qed.

  Fixpoint entries (o : obj) : table :=
    match o with
    | OEnd a v b => [(a, IEnd v b)]
    | OCut a i v l r => (a, ICut i v (addr l) (addr r)) :: entries l ++ entries r
    end.
  Lemma entries_keys o : map fst (entries o) = addresses o.
  Proof. induction o; cbn; [reflexivity|]. now rewrite map_app, IHo1, IHo2. Qed.
  Lemma assign_fresh a n m : ~ In a (map fst m) -> assign a n m = m ++ [(a, n)].
  Proof.
    induction m as [|[b k] m IH]; intro H; [reflexivity|]. cbn [assign]. rewrite (proj2 (str_eqb_neq a b)) by (intros ->; apply H; now left).
    cbn [app]. rewrite IH; [reflexivity|]. intro K. apply H. now right.
  Qed.
  Definition top_after (o : obj) (top : str) : str := match top with [] => addr o | _ => top end.
  Lemma top_twice o o' top : addr o <> [] -> top_after o' (top_after o top) = top_after o top.
  Proof. intro H. unfold top_after. destruct top; [|reflexivity]. destruct (addr o); [congruence|reflexivity]. Qed.

  Lemma not_end o : good o -> str_eqb (join sp (words o)) (S_ "end") = false.
  Proof.
    intro G. apply str_eqb_neq. intro E. assert (H : In sp (S_ "end")).
    { rewrite <- E. destruct o; cbn [words join]; apply in_or_app; right; now left. }
    cbv in H. repeat destruct H as [H|H]; try discriminate. contradiction.
  Qed.
  Lemma read_head o m top ends : good o ->
    read_line (join sp (words o)) (m, top, ends) =
    Ok (assign (addr o) (match o with OEnd _ v b => IEnd v b | OCut _ i v l r => ICut i v (addr l) (addr r) end) m, top_after o top,
        match o with OEnd _ v b => ends ++ [(v, b)] | _ => ends end).
  Proof.
    intro G. unfold Model.read_line. rewrite split_join.
    2:{ eapply Forall_impl; [|now apply good_words]. intros w. apply word_item. }
    destruct o as [a v b|a i v l r]; cbn [words readable_obj addr] in *.
    - destruct G as (_ & _ & _ & -> & ->). reflexivity.
    - destruct G as (_ & _ & _ & -> & -> & _). reflexivity.
  Qed.
  Lemma read_obj : forall o ls m top ends, good o -> NoDup (map fst m ++ addresses o) ->
    read_lines (lines o ++ ls) (m, top, ends) = read_lines ls (m ++ entries o, top_after o top, ends ++ leaves (tree_of o)).
  Proof.
    induction o as [a v b|a i v l IHl r IHr]; intros ls m top ends G N.
    - cbn [lines]. cbn [app Model.read_lines]. rewrite (not_end (OEnd a v b) G), (read_head (OEnd a v b)) by exact G. cbn [bind addr].
      rewrite assign_fresh; [reflexivity|]. cbn [addresses] in N. apply NoDup_remove_2 in N. rewrite app_nil_r in N. exact N.
    - cbn [lines]. cbn [app Model.read_lines]. rewrite (not_end (OCut a i v l r) G), (read_head (OCut a i v l r)) by exact G. cbn [bind addr].
      pose proof G as (Wa & _ & _ & _ & _ & Gl & Gr). cbn [addresses] in N.
      rewrite assign_fresh by (apply NoDup_remove_2 in N; intro K; apply N; apply in_or_app; now left).
      assert (N1 : NoDup (((map fst m ++ [a]) ++ addresses l) ++ addresses r)) by (rewrite <- !app_assoc; exact N).
      rewrite <- app_assoc. rewrite IHl; [|exact Gl|rewrite map_app; cbn [map fst]].
      2:{ clear - N1. set (x := (map fst m ++ [a]) ++ addresses l) in *. clearbody x. induction x; [constructor|].
          inversion N1 as [|? ? A B]; subst. constructor; [|auto]. intro K. apply A. apply in_or_app. now left. }
      rewrite IHr; [|exact Gr|rewrite !map_app, entries_keys; exact N1].
      assert (Ea : addr (OCut a i v l r) <> []) by exact (proj1 Wa).
      assert (T : top_after r (top_after l (top_after (OCut a i v l r) top)) = top_after (OCut a i v l r) top).
      { rewrite (top_twice (OCut a i v l r) l top Ea). apply (top_twice (OCut a i v l r) r top Ea). }
      rewrite T. cbn [entries tree_of leaves]. rewrite <- !app_assoc. reflexivity.
  Qed.

  Lemma find_entry : forall (m : table) a n, NoDup (map fst m) -> In (a, n) m -> find_node a m = Some n.
  Proof.
    induction m as [|[b k] m IH]; intros a n N H; [contradiction|]. cbn [find_node]. inversion N as [|? ? A B]; subst.
    destruct H as [H|H].
    - injection H as -> ->. now rewrite str_eqb_refl.
    - rewrite (proj2 (str_eqb_neq a b)); [now apply IH|]. intros ->. apply A. apply in_map_iff. now exists (b, n).
  Qed.
  Lemma addr_entry o : exists n, In (addr o, n) (entries o).
  Proof. destruct o; eexists; now left. Qed.
  Lemma children_entry o : forall a i v l r, In (a, ICut i v l r) (entries o) ->
    (exists n, In (l, n) (entries o)) /\ (exists n, In (r, n) (entries o)).
  Proof.
    induction o as [a v b|a i v l IHl r IHr]; intros a' i' v' l' r' H; cbn [entries] in *.
    - destruct H as [H|[]]. discriminate.
    - destruct H as [H|H].
      + injection H as <- <- <- <- <-. destruct (addr_entry l) as (n1 & H1). destruct (addr_entry r) as (n2 & H2).
        split; [exists n1|exists n2]; right; apply in_or_app; [now left|now right].
      + apply in_app_or in H as [H|H].
        * destruct (IHl _ _ _ _ _ H) as [[n1 H1] [n2 H2]]. split; [exists n1|exists n2]; right; apply in_or_app; now left.
        * destruct (IHr _ _ _ _ _ H) as [[n1 H1] [n2 H2]]. split; [exists n1|exists n2]; right; apply in_or_app; now right.
  Qed.
  Lemma linked_entries o : NoDup (addresses o) -> linked (entries o) = true.
  Proof.
    intro N. rewrite <- entries_keys in N. apply forallb_forall. intros [a n] H. destruct n as [|i v l r]; [reflexivity|].
    destruct (children_entry o a i v l r H) as [[n1 H1] [n2 H2]].
    now rewrite (find_entry _ _ _ N H1), (find_entry _ _ _ N H2).
  Qed.
  Fixpoint size (o : obj) : nat := match o with OEnd _ _ _ => 1 | OCut _ _ _ l r => S (size l + size r) end.
  Lemma size_addresses o : List.length (addresses o) = size o.
  Proof. induction o; cbn; [reflexivity|]. now rewrite app_length, IHo1, IHo2. Qed.
  Lemma follow_tree : forall o m, (forall a n, In (a, n) (entries o) -> find_node a m = Some n) ->
    forall fuel e, size o <= fuel -> follow fuel m (addr o) e = lookup (tree_of o) e.
  Proof.
    induction o as [a v b|a i v l IHl r IHr]; intros m H fuel e L; (destruct fuel as [|f]; [cbn in L; lia|]); cbn [follow addr tree_of lookup size] in *.
    - now rewrite (H a (IEnd v b) (or_introl eq_refl)).
    - rewrite (H a _ (or_introl eq_refl)). destruct (nth_error e i) as [x|]; [|reflexivity]. destruct (Qlt_bool x v).
      + apply IHr; [|lia]. intros; apply H. right. apply in_or_app. now right.
      + apply IHl; [|lia]. intros; apply H. right. apply in_or_app. now left.
  Qed.

  Theorem round_trip o : good o -> NoDup (addresses o) ->
    exists m, readFromStream stoi stod (serialize shown showd o) = Ok (m, addr o, leaves (tree_of o)) /\
      forall fuel e, List.length (addresses o) <= fuel -> follow fuel m (addr o) e = lookup (tree_of o) e.
  Proof.
    intros G N. exists (entries o). unfold readFromStream, serialize. rewrite getlines_node by exact G.
    rewrite (read_obj o _ [] [] []) by (try exact G; exact N). cbn [app top_after].
    change (getlines nl [] (S_ "end")) with [S_ "end"]. cbn [Model.read_lines]. rewrite str_eqb_refl. cbn [bind].
    rewrite linked_entries by exact N. split; [reflexivity|].
    intros fuel e L. apply follow_tree; [|now rewrite <- size_addresses].
    intros a n H. apply find_entry; [now rewrite entries_keys|exact H].
  Qed.
End Text.
