From Coq Require Import Field Sorted.
From Verif.Common Require Import Prelude.
From Verif.Tensor Require Import Invert.
Local Open Scope nat_scope.

(** ** Sorted lists of assignments *)
Section Sorted.
  Context {A : Type} (R : A -> A -> Prop).
  Lemma sorted_app l l' : StronglySorted R l -> StronglySorted R l' -> (forall x y, In x l -> In y l' -> R x y) -> StronglySorted R (l ++ l').
  Proof.
    induction 1 as [|x l S IH F]; intros S' H; cbn [app]; [assumption|]. constructor.
    - apply IH; [assumption|]. intros a b Ha. apply H. now right.
    - apply Forall_app. split; [assumption|]. apply Forall_forall. intros y Hy. apply H; [now left|assumption].
  Qed.
  Lemma sorted_map_seq (f : nat -> A) : forall n a, (forall i j, a <= i -> i < j -> j < a + n -> R (f i) (f j)) -> StronglySorted R (map f (seq a n)).
  Proof.
    induction n as [|n IH]; intros a H; cbn [seq map]; constructor.
    - apply IH. intros i j H1 H2 H3. apply H; lia.
    - apply Forall_forall. intros y Hy. apply in_map_iff in Hy as (j & <- & Hj). apply in_seq in Hj. apply H; lia.
  Qed.
  Lemma sorted_flat_map_seq (f : nat -> list A) : forall n a, (forall i, a <= i -> i < a + n -> StronglySorted R (f i)) ->
    (forall i j x y, a <= i -> i < j -> j < a + n -> In x (f i) -> In y (f j) -> R x y) -> StronglySorted R (flat_map f (seq a n)).
  Proof.
    induction n as [|n IH]; intros a H K; cbn [seq flat_map]; [constructor|]. apply sorted_app.
    - apply H; lia.
    - apply IH; [intros i H1 H2; apply H; lia|]. intros i j x y H1 H2 H3. apply (K i j); lia.
    - intros x y Hx Hy. apply in_flat_map in Hy as (j & Hj & Hy). apply in_seq in Hj. apply (K a j x y); auto; lia.
  Qed.
  Lemma sorted_snoc_inv l x : StronglySorted R (l ++ [x]) -> StronglySorted R l /\ forall y, In y l -> R y x.
  Proof.
    induction l as [|a l IH]; cbn [app]; intro S; [split; [constructor|intros y []]|].
    inversion S as [|? ? S' F]; subst. apply IH in S' as [S1 S2]. rewrite Forall_forall in F. split.
    - constructor; [assumption|]. apply Forall_forall. intros y Hy. apply F. apply in_app_iff. now left.
    - intros y [<-|Hy]; [|now apply S2]. apply F. apply in_app_iff. right. now left.
  Qed.
End Sorted.

Section Exec.
  Context {V : Type}.
  Variable cell : nat -> nat -> nat.
  Variable n : nat.
  Hypothesis Inj : forall i j i' j', i < n -> j < n -> i' < n -> j' < n -> cell i j = cell i' j' -> i = i' /\ j = j'.
  Notation op := (op V).
  Notation get := (get V cell).
  Notation exec_all := (exec_all V cell).
  Definition good (o : op) : Prop := row V o < n /\ col V o < n /\
    forall g g', (forall a b, a < n -> b < n -> g a b = g' a b) -> rhs V o g = rhs V o g'.
  Variable key : nat -> nat -> nat.
  Definition at_key (o : op) : nat := key (row V o) (col V o).
  Definition written (l : list op) (a b : nat) : bool := existsb (fun o => (row V o =? a) && (col V o =? b)) l.
  Lemma written_iff l a b : written l a b = true <-> exists o, In o l /\ row V o = a /\ col V o = b.
  Proof.
    unfold written. rewrite existsb_exists. split; intros (o & H & E); exists o.
    - apply andb_true_iff in E as [E1 E2]. apply Nat.eqb_eq in E1, E2. auto.
    - destruct E as [-> ->]. rewrite !Nat.eqb_refl. auto.
  Qed.

  Lemma get_exec m o a b : good o -> a < n -> b < n ->
    get (exec V cell m o) a b = if (row V o =? a) && (col V o =? b) then rhs V o (get m) else get m a b.
  Proof.
    intros (H1 & H2 & _) Ha Hb. unfold get, exec. destruct ((row V o =? a) && (col V o =? b)) eqn:E.
    - apply andb_true_iff in E as [E1 E2]. apply Nat.eqb_eq in E1, E2. subst a b. now rewrite Nat.eqb_refl.
    - destruct (cell a b =? cell (row V o) (col V o)) eqn:Ec; [|reflexivity]. apply Nat.eqb_eq in Ec.
      apply Inj in Ec as [-> ->]; [|assumption..]. rewrite !Nat.eqb_refl in E. discriminate.
  Qed.
  Lemma get_unwritten l : forall m a b, Forall good l -> a < n -> b < n -> written l a b = false -> get (exec_all m l) a b = get m a b.
  Proof.
    induction l as [|o l IH]; intros m a b G Ha Hb W; [reflexivity|]. cbn [Invert.exec_all fold_left written existsb] in *.
    apply orb_false_iff in W as [W1 W2]. fold (exec_all (exec V cell m o) l). rewrite IH; [|now inversion G|assumption..].
    rewrite get_exec; [|now inversion G|assumption..]. now rewrite W1.
  Qed.

  (** What an assignment of the list computes: it sees the final values of those before it and the initial values of
      the others. *)
  Lemma exec_sorted l : forall m, Forall good l -> StronglySorted (fun o o' => at_key o < at_key o') l ->
    forall o, In o l -> get (exec_all m l) (row V o) (col V o) =
      rhs V o (fun a b => if written l a b && (key a b <? at_key o) then get (exec_all m l) a b else get m a b).
  Proof.
    induction l as [|p l IH] using rev_ind; intros m G S o Ho; [destruct Ho|].
    apply Forall_app in G as [G1 G2]. pose proof (Forall_inv G2) as Gp. clear G2.
    apply sorted_snoc_inv in S as [S1 S2].
    assert (Ex : exec_all m (l ++ [p]) = exec V cell (exec_all m l) p) by (unfold Invert.exec_all; now rewrite fold_left_app).
    rewrite Ex.
    assert (Wp : forall a b, written (l ++ [p]) a b = written l a b || ((row V p =? a) && (col V p =? b))).
    { intros a b. unfold written. rewrite existsb_app. cbn [existsb]. now rewrite orb_false_r. }
    assert (Old : forall q, In q l -> (row V p =? row V q) && (col V p =? col V q) = false).
    { intros q Hq. apply Bool.not_true_iff_false. intro X. apply andb_true_iff in X as [X1 X2]. apply Nat.eqb_eq in X1, X2.
      apply S2 in Hq. unfold at_key in Hq. rewrite X1, X2 in Hq. lia. }
    assert (Wold : forall a b, written l a b = true -> (row V p =? a) && (col V p =? b) = false).
    { intros a b W. apply written_iff in W as (q & Hq & <- & <-). now apply Old. }
    apply in_app_iff in Ho as [Ho|[<-|[]]].
    - assert (Go : good o) by (rewrite Forall_forall in G1; now apply G1).
      destruct Go as (R1 & R2 & Rp). rewrite get_exec; [|assumption..]. rewrite (Old o Ho).
      rewrite (IH m G1 S1 o Ho). apply Rp. intros a b Ha Hb. rewrite Wp, get_exec by assumption.
      destruct (written l a b) eqn:W.
      + rewrite (Wold a b W). reflexivity.
      + cbn [orb andb]. destruct ((row V p =? a) && (col V p =? b)) eqn:E; [|reflexivity]. cbn [andb].
        apply andb_true_iff in E as [E1 E2]. apply Nat.eqb_eq in E1, E2. subst a b.
        pose proof (S2 o Ho) as K. unfold at_key in K. destruct (key (row V p) (col V p) <? at_key o) eqn:Ek; [|reflexivity].
        apply Nat.ltb_lt in Ek. unfold at_key in Ek. lia.
    - destruct Gp as (R1 & R2 & Rp). rewrite get_exec; [|now split..|assumption|assumption]. rewrite !Nat.eqb_refl. cbn [andb].
      apply Rp. intros a b Ha Hb. rewrite Wp, get_exec by (now split || assumption).
      destruct (written l a b) eqn:W.
      + rewrite (Wold a b W). cbn [orb andb]. apply written_iff in W as (q & Hq & <- & <-).
        pose proof (S2 q Hq) as K. unfold at_key at 1 in K. apply Nat.ltb_lt in K. now rewrite K.
      + cbn [orb]. destruct ((row V p =? a) && (col V p =? b)) eqn:E; cbn [andb]; [|now apply get_unwritten].
        apply andb_true_iff in E as [E1 E2]. apply Nat.eqb_eq in E1, E2. subst a b.
        unfold at_key. rewrite Nat.ltb_irrefl. now apply get_unwritten.
  Qed.
End Exec.

Lemma lex_lt n a b a' b' : b < n -> b' < n -> (a * n + b < a' * n + b' <-> a < a' \/ (a = a' /\ b < b')).
Proof. intros H H'. split; [|intros [?|[-> ?]]; nia]. intro L. destruct (Nat.lt_trichotomy a a') as [?|[->|?]]; [now left|right; split; [reflexivity|lia]|nia]. Qed.
