(** C37–C39: binning trees. *)
From Verif.Binning Require Import Spec Trees Text Fast.
From Verif.Resolver Require Model.
Local Open Scope nat_scope.

(** An order for the examples: insertion sort by one coordinate. *)
Fixpoint insert (i : nat) (e : event) (l : list event) : list event :=
  match l with [] => [e] | x :: l' => if Qle_bool (at_ e i) (at_ x i) then e :: l else x :: insert i e l' end.
Definition isort (i : nat) (l : list event) : list event := fold_right (insert i) [] l.
Lemma isort_sorts : sorts_by isort.
Proof.
  intros i l. split.
  - induction l as [|x l IH]; [reflexivity|]. change (isort i (x :: l)) with (insert i x (isort i l)). transitivity (x :: isort i l); [|now constructor].
    generalize (isort i l). clear. intro l. induction l as [|y l IH]; [reflexivity|]. cbn [insert]. destruct (Qle_bool _ _); [reflexivity|].
    rewrite IH. apply perm_swap.
  - induction l as [|x l IH]; [constructor|]. change (isort i (x :: l)) with (insert i x (isort i l)). revert IH. generalize (isort i l). clear.
    induction l as [|y l IH]; intro So; cbn [insert]; [repeat constructor|]. inversion So as [|? ? S1 F1]; subst.
    destruct (Qle_bool (at_ x i) (at_ y i)) eqn:E.
    + apply Qle_bool_iff in E. constructor; [exact So|]. constructor; [exact E|]. eapply Forall_impl; [|exact F1]. intros b Hb. now apply Qle_trans with (at_ y i).
    + assert (L : (at_ y i <= at_ x i)%Q) by (destruct (Qlt_le_dec (at_ y i) (at_ x i)) as [K|K]; [now apply Qlt_le_weak|apply Qle_bool_iff in K; congruence]).
      constructor; [now apply IH|]. clear - F1 L. induction l as [|z l IH]; cbn [insert]; [now constructor|]. inversion F1 as [|? ? Fz Fl]; subst.
      destruct (Qle_bool _ _); constructor; auto.
Qed.
Definition coords (d : nat) (_ : list event) : list nat := seq 0 d.
Lemma coords_orders d : orders d (coords d). Proof. intro l. reflexivity. Qed.
Definition conf1 (m : nat) : conf := {| dim := 1; minEvents := m; maxDepth := 999; ordering := [] |}.
Definition ev (z : Z) : event := [inject_Z z].

(** C37. A tree is made from any sample of two or more complete events: every point has one bin, bins are numbered
    0..n-1, the events are shared out among the bins, the minimum is kept (and less than twice the minimum is left in a
    bin unless the depth limit stops the division). If no two events agree in a coordinate each bin holds just the
    events that fall into it, so at least the minimum of them. Missing: samples with equal coordinates
    (C37_ties_refuted). *)
Theorem C37_partition_partial : forall sort by_variance c fuel evts,
  sorts_by sort -> orders (dim c) by_variance -> usable c ->
  List.length evts < fuel -> 2 <= List.length evts -> complete (dim c) evts ->
  exists t ends, build sort by_variance c fuel evts = Ok (t, ends) /\
    Permutation (map fst (leaves t)) (seq 0 (List.length ends)) /\
    Permutation (List.concat ends) evts /\
    (minEvents c <= List.length evts -> Forall (fun l => minEvents c <= List.length l) ends) /\
    (List.length evts <= maxDepth c -> Forall (fun l => List.length l < 2 * minEvents c) ends) /\
    (forall e, dim c <= List.length e -> exists v b, lookup t e = Ok (v, b) /\ v < List.length ends) /\
    (distinct (dim c) evts -> agrees (falls t) evts ends).
Proof. intros sort bv c fuel evts H1 H2 H3 H4 H5 H6. exact (build_ok sort bv c H1 H2 H3 fuel evts H4 H5 H6). Qed.
Print Assumptions C37_partition_partial.

(** C37. The division by two samples: whatever cuts the line search picks, every point has one bin, no bin is empty of
    source events, and each bin holds just the events of either sample that fall into it — also with equal
    coordinates. *)
Theorem C37_two_samples : forall sort by_variance c cut fuel src tgt,
  sorts_by sort -> orders (dim c) by_variance -> usable c ->
  List.length src < fuel -> 2 <= List.length src -> complete (dim c) src -> complete (dim c) tgt ->
  exists t ends, build2 sort by_variance c cut fuel src tgt = Ok (t, ends) /\
    Permutation (map fst (leaves t)) (seq 0 (List.length ends)) /\
    Forall (fun l => fst l <> []) ends /\
    (forall e, dim c <= List.length e -> exists v b, lookup t e = Ok (v, b) /\ v < List.length ends) /\
    Permutation (List.concat (map fst ends)) src /\ Permutation (List.concat (map snd ends)) tgt /\
    agrees (falls t) src (map fst ends) /\ agrees (falls t) tgt (map snd ends).
Proof. intros sort bv c cut fuel s t H1 H2 H3 H4 H5 H6 H7. exact (build2_ok sort bv c cut H1 H2 H3 fuel s t H4 H5 H6 H7). Qed.
Print Assumptions C37_two_samples.

Lemma conf1_usable m : 0 < m -> usable (conf1 m).
Proof. intro H. split; [cbn; lia|]. split; [exact H|now left]. Qed.
(** Five events, two per bin: the hypotheses hold and the tree divides at (1 + 2 + 4) / 3. *)
Example C37_example :
  let evts := [ev 9; ev 1; ev 0; ev 2; ev 4] in
  sorts_by isort /\ orders 1 (coords 1) /\ usable (conf1 2) /\ complete 1 evts /\ distinct 1 evts /\
  build isort (coords 1) (conf1 2) 6 evts =
    Ok (Cut 0 ((inject_Z 4 + inject_Z 1 + inject_Z 2) / 3) (End 1 999) (End 0 999), [[ev 0; ev 1; ev 2]; [ev 4; ev 9]]).
Proof.
  split; [apply isort_sorts|]. split; [apply coords_orders|]. split; [apply conf1_usable; lia|]. split; [repeat constructor|]. split; [|vm_compute; reflexivity].
  - intros i Hi. assert (i = 0) as -> by lia. vm_compute. repeat (constructor; [cbn; intuition discriminate|]). constructor.
Qed.

(** C37, finding. Events with equal coordinates: the sample is divided in the middle of its sorted order, the look-up
    compares with the cut. With two events at the same place and one event per bin, both fall into bin 1 and bin 0
    stays empty, although one event was counted into it. *)
Theorem C37_ties_refuted : exists evts t ends,
  build isort (coords 1) (conf1 1) 3 evts = Ok (t, ends) /\ complete 1 evts /\ usable (conf1 1) /\
  ~ agrees (falls t) evts ends /\ List.length ends = 2 /\
  filter (falls t 0) evts = [] /\ List.length (filter (falls t 1) evts) = 2.
Proof.
  exists [ev 1; ev 1]. eexists; eexists. split; [vm_compute; reflexivity|]. split; [repeat constructor|]. split; [apply conf1_usable; lia|].
  split; [|repeat split; reflexivity]. intro A. specialize (A 0 [ev 1] eq_refl). apply Permutation_length in A. vm_compute in A. discriminate.
Qed.
Print Assumptions C37_ties_refuted.

(** C37, finding. A sample of one event, or none: the constructor compares the first event with the second one, which
    does not exist (nearestNeighbourVariance, BinDT.cpp:27), whatever the configuration. *)
Theorem C37_small_sample_refuted : exists evts, forall sort by_variance c fuel, 0 < dim c -> 0 < minEvents c ->
  build sort by_variance c fuel evts = UB.
Proof.
  exists [ev 1]. intros sort bv c fuel Hd Hm. unfold build, refreshQueue. cbn [List.length].
  rewrite (proj2 (Nat.ltb_ge (minEvents c * 2 ^ dim c) 1)).
  - cbn [andb]. rewrite (proj2 (Nat.eqb_neq (dim c) 0)) by lia. reflexivity.
  - pose proof (Nat.pow_nonzero 2 (dim c) ltac:(lia)). nia.
Qed.
Print Assumptions C37_small_sample_refuted.

(** C37, finding. The constructor that takes an EventList and an ArgumentPack drops the tree it makes (BinDT.cpp:102):
    no point has a bin, the first look-up dereferences null. *)
Theorem C37_constructor_refuted : exists evts b,
  construct FromListAndPack (build isort (coords 1) (conf1 1) 3 evts) = Ok b /\ m_size b = 2 /\
  forall e, getBinNumber b e = UB.
Proof. exists [ev 1; ev 2]. eexists. split; [vm_compute; reflexivity|]. split; [reflexivity|]. intro e. reflexivity. Qed.
Print Assumptions C37_constructor_refuted.

(** C38. A tree whose nodes have different addresses and whose numbers print to words that read back: reading what was
    written makes nodes in which every point reaches the same voxel and bin number, and as many end nodes. *)
Theorem C38_round_trip : forall shown stoi showd stod o,
  readable_obj shown stoi showd stod o -> NoDup (addresses o) ->
  exists m, readFromStream stoi stod (serialize shown showd o) = Ok (m, addr o, leaves (tree_of o)) /\
    forall fuel e, List.length (addresses o) <= fuel -> follow fuel m (addr o) e = lookup (tree_of o) e.
Proof. exact round_trip. Qed.
Print Assumptions C38_round_trip.

(** Printing for the example: decimal integers; only the number 5/2 is printed and read. *)
Definition shown1 : nat -> str := Resolver.Model.to_text.
Definition stoi1 (s : str) : option nat := match s with [c] => Some (nat_of_ascii c - 48) | _ => Some 999 end.
Definition showd1 (_ : Q) : str := S_ "2.5".
Definition stod1 (_ : str) : option Q := Some (5 # 2).
Definition obj1 : obj := OCut (S_ "0x30") 0 (5 # 2) (OEnd (S_ "0x20") 1 999) (OEnd (S_ "0x10") 0 999).
Lemma word_dec s : (match s with [] => false | _ => true end && forallb (fun c => negb (Ascii.eqb c sp) && negb (Ascii.eqb c nl)) s
  && negb (str_eqb s ["009"%char])) = true -> word s.
Proof.
  intro H. apply andb_true_iff in H as [H H3]. apply andb_true_iff in H as [H1 H2]. split; [now destruct s|].
  rewrite forallb_forall in H2. split; [|split].
  - intro K. apply H2 in K. rewrite Ascii.eqb_refl in K. discriminate.
  - intro K. apply H2 in K. rewrite Ascii.eqb_refl, andb_comm in K. discriminate.
  - intros ->. discriminate.
Qed.
Example C38_example :
  readable_obj shown1 stoi1 showd1 stod1 obj1 /\ NoDup (addresses obj1) /\
  serialize shown1 showd1 obj1 = S_ "0x30 0 2.5 0x20 0x10
0x20 1 999
0x10 0 999
end" /\ lookup (tree_of obj1) (ev 3) = Ok (1, 999) /\ lookup (tree_of obj1) (ev 2) = Ok (0, 999).
Proof.
  split; [|split; [|split; [|split]]].
  - cbn [readable_obj obj1]. repeat match goal with |- _ /\ _ => split end; try (apply word_dec; vm_compute; reflexivity); vm_compute; reflexivity.
  - cbn [addresses obj1 app]. repeat (constructor; [cbn; intuition discriminate|]). constructor.
  - vm_compute. reflexivity.
  - reflexivity.
  - reflexivity.
Qed.

(** C38, finding. The list of end nodes is not preserved: makeNodes appends end node number i at place i, the reader
    appends them in the order of the file, where the upper branch comes first. After reading, nodes()[i] is not the
    node with voxel number i. *)
Theorem C38_node_order_refuted : exists evts t ends o m top nodes,
  build isort (coords 1) (conf1 1) 3 evts = Ok (t, ends) /\ tree_of o = t /\ NoDup (addresses o) /\
  (forall e, In e evts -> exists b, falls t b e = true /\ nth_error ends b = Some [e]) /\
  readFromStream stoi1 (fun _ => Some ((inject_Z 1 + inject_Z 2) / 2)%Q) (serialize shown1 showd1 o) = Ok (m, top, nodes) /\
  map fst nodes = [1; 0].
Proof.
  exists [ev 1; ev 2]. eexists; eexists.
  exists (OCut (S_ "0x30") 0 ((inject_Z 1 + inject_Z 2) / 2) (OEnd (S_ "0x20") 1 999) (OEnd (S_ "0x10") 0 999)).
  eexists; eexists; eexists. split; [vm_compute; reflexivity|]. split; [vm_compute; reflexivity|].
  split; [cbn [addresses app]; repeat (constructor; [cbn; intuition discriminate|]); constructor|].
  split; [intros e [<-|[<-|[]]]; [exists 0|exists 1]; split; reflexivity|].
  split; [vm_compute; reflexivity|reflexivity].
Qed.
Print Assumptions C38_node_order_refuted.

(** C39. One sample, in which no two events agree in a coordinate and none lies half way between two others: every
    point is led to an end node inside the array, and each end node holds just the events led to it. Without the
    condition the first part still holds. Missing: samples with such coincidences (C39_median_refuted) and samples too
    small to be divided (C39_small_sample_refuted). *)
Theorem C39_training_partial : forall sort by_variance c fuel evts,
  sorts_by sort -> orders (dim c) by_variance -> 0 < dim c -> 0 < minEvents c ->
  List.length evts < fuel -> 2 <= List.length evts -> complete (dim c) evts ->
  exists st, trainFast sort by_variance c fuel evts = Ok st /\
    Permutation (List.concat (map fst (filled st))) evts /\
    (m_nodes st <> [] <-> 2 * minEvents c <= List.length evts) /\
    (m_nodes st <> [] -> forall e, dim c <= List.length e -> exists b, findNode (m_nodes st) e = Ok b /\ b < List.length (filled st)) /\
    (m_nodes st <> [] -> distinct (dim c) evts -> unaligned (dim c) evts -> agrees (falls_fast (m_nodes st)) evts (map fst (filled st))).
Proof. intros sort bv c fuel evts H1 H2 H3 H4 H5 H6 H7. exact (trainFast_ok sort bv c H1 H2 H3 H4 fuel evts H5 H6 H7). Qed.
Print Assumptions C39_training_partial.

(** C39. Two samples, cutting on a coordinate drawn at random: whatever cuts the line search picks and whatever the
    samples, the look-up ends inside the array and agrees with the training. *)
Theorem C39_two_samples : forall sort c shuffled cut fuel src tgt,
  sorts_by sort -> (forall l n, Permutation (shuffled l n) (seq 0 (dim c))) -> 0 < dim c -> 0 < minEvents c ->
  List.length src < fuel -> complete (dim c) src -> complete (dim c) tgt ->
  exists st, trainFast2 sort c shuffled cut fuel Random src tgt = Ok st /\
    Permutation (List.concat (map fst (filled st))) src /\ Permutation (List.concat (map snd (filled st))) tgt /\
    (m_nodes st <> [] ->
      (forall e, dim c <= List.length e -> exists b, findNode (m_nodes st) e = Ok b /\ b < List.length (filled st)) /\
      agrees (falls_fast (m_nodes st)) src (map fst (filled st)) /\ agrees (falls_fast (m_nodes st)) tgt (map snd (filled st))).
Proof. intros sort c sh cut fuel s t H1 H2 H3 H4 H5 H6 H7. exact (trainFast2_ok sort c sh cut H1 H2 H3 H4 fuel s t H5 H6 H7). Qed.
Print Assumptions C39_two_samples.

Example C39_example :
  let evts := [ev 9; ev 1; ev 0; ev 4] in
  complete 1 evts /\ distinct 1 evts /\ exists st, trainFast isort (coords 1) (conf1 1) 5 evts = Ok st /\
  List.length (m_nodes st) = 3 /\ map (findNode (m_nodes st)) evts = [Ok 3; Ok 1; Ok 0; Ok 2].
Proof.
  split; [repeat constructor|]. split.
  - intros i Hi. assert (i = 0) as -> by lia. vm_compute. repeat (constructor; [cbn; intuition discriminate|]). constructor.
  - eexists. split; [vm_compute; reflexivity|]. split; reflexivity.
Qed.
Example C39_two_example : exists st,
  trainFast2 isort (conf1 1) (fun _ _ => [0]) (fun _ _ _ => Some (inject_Z 2)) 9 Random [ev 1; ev 2; ev 3] [ev 2; ev 2; ev 5] = Ok st /\
  m_nodes st <> [] /\ map (findNode (m_nodes st)) [ev 1; ev 2; ev 3; ev 5] = [Ok 0; Ok 0; Ok 1; Ok 1].
Proof. eexists. split; [vm_compute; reflexivity|]. split; [discriminate|reflexivity]. Qed.

(** C39, finding. The look-up sends an event on the cut to the lower side, the training puts the median into the upper
    half. With the events 1, 2, 3 the cut is their mean, 2: the event 2 was put into the upper end node and is led to
    the lower one. No two events agree. *)
Theorem C39_median_refuted : exists evts st,
  trainFast isort (coords 1) (conf1 1) 4 evts = Ok st /\ complete 1 evts /\ distinct 1 evts /\ m_nodes st <> [] /\
  nth_error (map fst (filled st)) 1 = Some [ev 2] /\ findNode (m_nodes st) (ev 2) = Ok 0 /\
  ~ agrees (falls_fast (m_nodes st)) evts (map fst (filled st)).
Proof.
  exists [ev 1; ev 2; ev 3]. eexists. split; [vm_compute; reflexivity|]. split; [repeat constructor|]. split.
  { intros i Hi. assert (i = 0) as -> by lia. vm_compute. repeat (constructor; [cbn; intuition discriminate|]). constructor. }
  split; [discriminate|]. split; [reflexivity|]. split; [reflexivity|].
  intro A. specialize (A 1 [ev 2] eq_refl). apply Permutation_length in A. vm_compute in A. discriminate.
Qed.
Print Assumptions C39_median_refuted.

(** C39, finding. A sample too small to be divided leaves the node array empty; every look-up then reads element -1 of
    it. *)
Theorem C39_small_sample_refuted : exists evts st, trainFast isort (coords 1) (conf1 20) 3 evts = Ok st /\
  List.length (filled st) = 1 /\ forall e, findNode (m_nodes st) e = UB.
Proof. exists [ev 1; ev 2]. eexists. split; [vm_compute; reflexivity|]. split; reflexivity. Qed.
Print Assumptions C39_small_sample_refuted.

(** C39, finding. Strategy::best never works: after the loop over the coordinates the code dereferences the end
    iterator instead of the best one (FastDT.cpp:208), whatever the samples. *)
Theorem C39_best_refuted : exists src tgt, forall sort shuffled cut fuel d, 0 < d ->
  trainFast2 sort {| dim := d; minEvents := 1; maxDepth := 999; ordering := [] |} shuffled cut (S fuel) Best src tgt = UB.
Proof. exists [ev 1; ev 2], [ev 1; ev 2]. intros. reflexivity. Qed.
Print Assumptions C39_best_refuted.
