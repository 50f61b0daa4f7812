From Coq Require Import Reals List Lia Lra Permutation.
From Verif.Common Require Import Prelude Writes.
From Verif.Kinematics Require Import Model Spec Proofs.
From Verif.Recursive Require Import Model Spec.
Import ListNotations.
Local Open Scope R_scope.

Lemma node_ind' (P : node -> Prop) : (forall n m s ds, Forall P ds -> P (Node n m s ds)) -> forall n, P n.
Proof. intro H. fix IH 1. intros [n m s ds]. apply H. induction ds as [|d ds IHds]; constructor; [apply IH|exact IHds]. Qed.
Lemma chain_ind' (P : chain -> Prop) : (forall n m ds, Forall P ds -> P (Chain n m ds)) -> forall n, P n.
Proof. intro H. fix IH 1. intros [n m ds]. apply H. induction ds as [|d ds IHds]; constructor; [apply IH|exact IHds]. Qed.

(** ** Places *)
(** The loop over final states as a loop over their list. *)
Fixpoint places (types : list str) (l : list (str * option nat)) (used : list nat) : list (str * option nat) * list nat :=
  match l with
  | [] => ([], used)
  | (n, s) :: r =>
      let '(s', u) := match first_free used n types 0 with Some i => (Some i, i :: used) | None => (s, used) end in
      let '(r', u') := places types r u in ((n, s') :: r', u')
  end.
Lemma places_app types l k : forall u, places types (l ++ k) u = let '(l', u1) := places types l u in let '(k', u2) := places types k u1 in (l' ++ k', u2).
Proof.
  induction l as [|[n s] l IH]; intro u; cbn; [now destruct (places types k u)|]. destruct (match first_free u n types 0 with Some i => (Some i, i :: u) | None => (s, u) end) as [s' u1].
  rewrite IH. destruct (places types l u1) as [l' u2]. destruct (places types k u2) as [k' u3]. reflexivity.
Qed.
Lemma assign1_node types n m s ds used : ds <> [] -> assign1 types (Node n m s ds) used = let '(ds', u) := assign types ds used in (Node n m s ds', u).
Proof. intro N. destruct ds as [|d ds]; [congruence|]. reflexivity. Qed.
Lemma assign_shape types : forall ds used, (fst (assign types ds used) = [] <-> ds = []).
Proof. intros [|d ds] used; [split; reflexivity|]. cbn. destruct (assign1 types d used) as [d' u]. destruct (assign types ds u) as [r' u']. split; discriminate. Qed.
Lemma assign1_places types : forall n used, (leaves (fst (assign1 types n used)), snd (assign1 types n used)) = places types (leaves n) used.
Proof.
  apply (node_ind' (fun n => forall used, (leaves (fst (assign1 types n used)), snd (assign1 types n used)) = places types (leaves n) used)). intros n m s ds IH used.
  destruct ds as [|d0 ds0].
  - cbn. destruct (first_free used n types 0); reflexivity.
  - rewrite assign1_node by discriminate. cbn [leaves]. set (l := d0 :: ds0) in *. assert (Nl : l <> []) by discriminate.
    assert (G : forall ds, Forall (fun n => forall used, (leaves (fst (assign1 types n used)), snd (assign1 types n used)) = places types (leaves n) used) ds ->
       forall used, (flat_map leaves (fst (assign types ds used)), snd (assign types ds used)) = places types (flat_map leaves ds) used).
    { clear. induction 1 as [|d ds Hd _ IHds]; intro used; [reflexivity|]. cbn [assign flat_map]. rewrite places_app, <- Hd. destruct (assign1 types d used) as [d' u]. cbn [fst snd].
      rewrite <- IHds. destruct (assign types ds u) as [r' u']. reflexivity. }
    rewrite <- (G l IH used). destruct (assign types l used) as [ds' u] eqn:E. cbn [fst snd leaves].
    assert (Q : ds' <> []) by (intro Z; apply Nl; apply (assign_shape types l used); now rewrite E). destruct ds'; [congruence|reflexivity].
Qed.
Lemma assign_places types ds : forall used, (flat_map leaves (fst (assign types ds used)), snd (assign types ds used)) = places types (flat_map leaves ds) used.
Proof.
  induction ds as [|d ds IH]; intro used; [reflexivity|]. cbn [assign flat_map]. rewrite places_app, <- assign1_places. destruct (assign1 types d used) as [d' u]. cbn [fst snd].
  rewrite <- IH. destruct (assign types ds u) as [r' u']. reflexivity.
Qed.
Lemma places_names types l : forall used, map fst (fst (places types l used)) = map fst l.
Proof.
  induction l as [|[n s] l IH]; intro used; [reflexivity|]. cbn [places]. destruct (match first_free used n types 0 with Some i => (Some i, i :: used) | None => (s, used) end) as [s' u].
  specialize (IH u). destruct (places types l u) as [l' u']. cbn in *. now rewrite IH.
Qed.
Lemma construct_names types c : map fst (flat_map leaves (construct types c)) = final_states c.
Proof.
  revert c. apply (chain_ind' (fun c => map fst (flat_map leaves (construct types c)) = final_states c)). intros n m ds IH. cbn [construct final_states].
  pose proof (assign_places types (map (fun d => match d with Chain n m _ => Node n m None (construct types d) end) ds) []) as Q.
  apply (f_equal fst) in Q. cbn [fst] in Q. rewrite Q, places_names. clear Q. induction IH as [|d ds Hd _ IHds]; [reflexivity|]. cbn [map flat_map]. rewrite map_app, IHds. f_equal.
  destruct d as [n' m' ds']. cbn [leaves finals]. destruct ds' as [|d1 ds1]; [reflexivity|].
  destruct (construct types (Chain n' m' (d1 :: ds1))) as [|x y] eqn:E; [|exact Hd]. exfalso. cbn [construct] in E. apply assign_shape in E. discriminate.
Qed.
Lemma existsb_in i used : existsb (Nat.eqb i) used = true <-> In i used.
Proof. rewrite existsb_exists. split; [intros (j & I & E); apply Nat.eqb_eq in E; now subst|intro I; exists i; split; [exact I|apply Nat.eqb_refl]]. Qed.
Lemma str_eqb_iff a b : str_eqb a b = true <-> a = b.
Proof. apply str_eqb_eq. Qed.
Lemma first_free_spec used name types : forall i,
  match first_free used name types i with
  | Some j => (i <= j)%nat /\ ~ In j used /\ nth_error types (j - i) = Some name
  | None => forall k, nth_error types k = Some name -> In (i + k)%nat used
  end.
Proof.
  induction types as [|t r IH]; intro i; cbn [first_free]; [intros [|k]; discriminate|]. destruct (existsb (Nat.eqb i) used) eqn:X; cbn [negb andb].
  - specialize (IH (S i)). destruct (first_free used name r (S i)) as [j|].
    + destruct IH as (A & B & C). split; [lia|]. split; [exact B|]. replace (j - i)%nat with (S (j - S i)) by lia. exact C.
    + intros [|k] E; [rewrite Nat.add_0_r; now apply existsb_in|]. replace (i + S k)%nat with (S i + k)%nat by lia. now apply IH.
  - assert (Ni : ~ In i used) by (intro I; apply existsb_in in I; congruence). destruct (str_eqb name t) eqn:Et.
    + apply str_eqb_iff in Et. subst t. split; [lia|]. split; [exact Ni|]. rewrite Nat.sub_diag. reflexivity.
    + specialize (IH (S i)). destruct (first_free used name r (S i)) as [j|].
      * destruct IH as (A & B & C). split; [lia|]. split; [exact B|]. replace (j - i)%nat with (S (j - S i)) by lia. exact C.
      * intros [|k] E; [cbn in E; injection E as ->; assert (str_eqb name name = true) by (now apply str_eqb_iff); congruence|]. replace (i + S k)%nat with (S i + k)%nat by lia. now apply IH.
Qed.
(** How many unused places have a name. *)
Definition free (types : list str) (used : list nat) (name : str) : nat :=
  List.length (filter (fun k => negb (existsb (Nat.eqb k) used) && (if nth_error types k then str_eqb name (nth k types name) else false)) (seq 0 (List.length types))).
Lemma free_in types used name k : In k (filter (fun k => negb (existsb (Nat.eqb k) used) && (if nth_error types k then str_eqb name (nth k types name) else false)) (seq 0 (List.length types))) <-> ~ In k used /\ nth_error types k = Some name.
Proof.
  rewrite filter_In, in_seq, andb_true_iff, negb_true_iff. rewrite <- existsb_in. destruct (nth_error types k) as [t|] eqn:E.
  - pose proof (nth_error_nth _ _ name E) as En. rewrite En, str_eqb_iff. assert (k < List.length types)%nat by (apply nth_error_Some; congruence). split; [intros (A & B & C); split; congruence|].
    intros (A & B). split; [lia|]. split; [destruct (existsb _ used); [now destruct A|reflexivity]|congruence].
  - split; [intros (_ & _ & C); discriminate|intros (_ & C); discriminate].
Qed.
Lemma free_use types used i name other : ~ In i used -> nth_error types i = Some name ->
  (free types used other <= (if str_eqb other name then 1 else 0) + free types (i :: used) other)%nat.
Proof.
  intros Ni Ei. unfold free. set (l := filter _ (seq 0 _)). set (l' := filter (fun k => negb (existsb (Nat.eqb k) (i :: used)) && _) _).
  assert (Nd : NoDup l) by (apply NoDup_filter, seq_NoDup). destruct (str_eqb other name) eqn:Eo.
  - change (1 + List.length l')%nat with (List.length (i :: l')). apply NoDup_incl_length; [exact Nd|]. intros k I. apply free_in in I as [A B]. destruct (Nat.eq_dec k i) as [-> | Nk]; [now left|right].
    apply free_in. split; [intros [E|I]; congruence|exact B].
  - apply NoDup_incl_length; [exact Nd|]. intros k I. apply free_in in I as [A B]. apply free_in. split; [|exact B]. intros [E|I]; [|contradiction]. subst k. rewrite Ei in B. injection B as ->.
    assert (str_eqb other other = true) by (now apply str_eqb_iff). congruence.
Qed.
Fixpoint count (n : str) (l : list (str * option nat)) : nat := match l with [] => 0 | (m, _) :: r => ((if str_eqb n m then 1 else 0) + count n r)%nat end.
Lemma places_ok types l : forall used, (forall n, (count n l <= free types used n)%nat) -> exists ks,
  fst (places types l used) = combine (map fst l) (map Some ks) /\ List.length ks = List.length l /\ NoDup ks /\ (forall k, In k ks -> ~ In k used) /\ Forall2 (fun k n => nth_error types k = Some n) ks (map fst l).
Proof.
  induction l as [|[n s] l IH]; intros used H; [exists []; repeat split; constructor || (intros k []) || idtac; constructor|].
  cbn [places]. pose proof (first_free_spec used n types 0) as Q. destruct (first_free used n types 0) as [i|].
  - destruct Q as (_ & Ni & Ei). rewrite Nat.sub_0_r in Ei. destruct (IH (i :: used)) as (ks & E & L & Nd & Un & F).
    { intro o. specialize (H o). cbn [count] in H. pose proof (free_use types used i n o Ni Ei). destruct (str_eqb o n); lia. }
    destruct (places types l (i :: used)) as [r' u']. cbn [fst] in *. exists (i :: ks). cbn [map combine fst List.length]. rewrite E. split; [reflexivity|]. split; [lia|]. split.
    + constructor; [|exact Nd]. intro I. apply (Un i I). now left.
    + split; [intros k [<- | I]; [exact Ni|]; intro J; apply (Un k I); now right|]. constructor; assumption.
  - exfalso. specialize (H n). cbn [count] in H. assert (str_eqb n n = true) as E by now apply str_eqb_iff. rewrite E in H. unfold free in H.
    destruct (filter _ (seq 0 (List.length types))) as [|k r] eqn:Fl in H; [cbn in H; lia|]. assert (I : In k (k :: r)) by now left. rewrite <- Fl in I. apply free_in in I as [A B]. apply A. exact (Q k B).
Qed.
Lemma count_names n l : count n l = count_occ str_dec (map fst l) n.
Proof. induction l as [|[m s] l IH]; [reflexivity|]. cbn [count map fst count_occ]. rewrite IH. destruct (str_eqb_spec n m), (str_dec m n); try congruence; reflexivity. Qed.
Lemma free_nil types n : free types [] n = count_occ str_dec types n.
Proof.
  unfold free. induction types as [|t r IH]; [reflexivity|]. cbn [List.length seq]. rewrite <- seq_shift. cbn [filter nth_error nth existsb negb andb].
  assert (E : forall f (l : list nat), List.length (filter f (map S l)) = List.length (filter (fun k => f (S k)) l)).
  { intros f l. induction l as [|a l IHl]; [reflexivity|]. cbn. destruct (f (S a)); cbn; now rewrite IHl. }
  cbn [count_occ]. destruct (str_eqb n t) eqn:Et.
  - apply str_eqb_iff in Et. subst t. destruct (str_dec n n); [|congruence]. cbn [List.length]. rewrite E. f_equal. exact IH.
  - destruct (str_dec t n) as [-> |]; [assert (str_eqb n n = true) by (now apply str_eqb_iff); congruence|]. rewrite E. exact IH.
Qed.
Lemma construct_places types c : Permutation (final_states c) types -> exists ks, flat_map leaves (construct types c) = combine (final_states c) (map Some ks) /\
  Permutation ks (seq 0 (List.length types)) /\ Forall2 (fun k n => nth_error types k = Some n) ks (final_states c).
Proof.
  intro P. pose proof (construct_names types c) as Nm. destruct c as [n m ds]. cbn [construct] in *. set (l := map _ ds) in *.
  pose proof (f_equal fst (assign_places types l [])) as Q. cbn [fst] in Q. rewrite Q in Nm |- *. rewrite places_names in Nm.
  destruct (places_ok types (flat_map leaves l) []) as (ks & E & L & Nd & _ & F).
  { intro o. rewrite count_names, free_nil, Nm. apply Nat.eq_le_incl. now apply Permutation_count_occ. }
  exists ks. rewrite Nm in E, F. split; [exact E|]. split; [|exact F].
  apply NoDup_Permutation_bis; [exact Nd| |].
  - rewrite seq_length, L, <- (map_length fst), Nm. rewrite (Permutation_length P). apply Nat.le_refl.
  - intros k I. apply in_seq. split; [lia|]. cbn. destruct (In_nth _ _ O I) as (j & Lj & Ej). assert (X : exists nm, nth_error types k = Some nm).
    { clear - F I. induction F as [|a b u v H _ IH]; [destruct I|]. destruct I as [<- | I]; [now exists b|now apply IH]. }
    destruct X as [nm X]. apply nth_error_Some. congruence.
Qed.
