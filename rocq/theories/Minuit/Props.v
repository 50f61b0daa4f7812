From Verif.Common Require Import Prelude.
From Verif.Enum Require Import Spec.
From Verif.Options Require Import Spec.
From Verif.Minuit Require Import Model Spec Proofs Load.

Definition par (n : string) (f : Z) (v : nat) : param nat := mkParam nat 0 99 (S_ n) f v 1 0 0.
Definition get (r : res (bool * pset nat)) : pset nat := match r with Ok (_, s) => s | _ => empty_set nat end.
Definition pair_of (f : Z) : pset nat := get (add_new nat (par "b" f 3) (get (add_new nat (par "a" Free 2) (empty_set nat)))).
Definition two : pset nat := pair_of Fix.
Lemma pair_reachable f : reachable nat (pair_of f).
Proof.
  apply (r_add nat (get (add_new nat (par "a" Free 2) (empty_set nat))) (par "b" f 3) true); [|vm_compute; reflexivity|vm_compute; reflexivity].
  apply (r_add nat (empty_set nat) (par "a" Free 2) true); [apply r_empty|vm_compute; reflexivity|vm_compute; reflexivity].
Qed.

(** ** C12 *)
(** The full claim is about every sequence of additions, renamings and removals; it holds without removals and without
    adding a name twice. *)
Theorem C12_consistent_partial : forall D (s : pset D), reachable D s -> consistent D s.
Proof. exact reachable_consistent. Qed.
Print Assumptions C12_consistent_partial.
Theorem C12_destroy_partial : forall D (s : pset D), reachable D s -> destroy (vec D s) [] = Ok (vec D s).
Proof.
  intros D s H. apply destroy_ok; [|intros a _ []]. apply consistent_NoDup. now apply reachable_consistent.
Qed.
Print Assumptions C12_destroy_partial.
(** addOrGet gives the parameter of that name, whether it was there or not. *)
Theorem C12_addOrGet : forall D (s s' : pset D) p a, consistent D s -> addOrGet D p s = Ok (a, s') ->
  consistent D s' /\ find D (name D p) s' = Some a.
Proof. exact consistent_addOrGet. Qed.
Print Assumptions C12_addOrGet.
(** A renamed parameter is found under the new name only; other names find what they found. *)
Theorem C12_rename : forall D (s s' : pset D) k k', consistent D s -> rename D k k' s = Ok (true, s') ->
  find D k s' = None /\ find D k' s' = find D k s /\ (forall x, x <> k -> x <> k' -> find D x s' = find D x s) /\
  vec D s' = vec D s.
Proof. exact rename_spec. Qed.
Print Assumptions C12_rename.
Example C12_example : reachable nat two /\ map (deref nat two) (vec nat two) = [Ok (par "a" Free 2); Ok (par "b" Fix 3)] /\
  find nat (S_ "c") (get (rename nat (S_ "a") (S_ "c") two)) = Some 0 /\ find nat (S_ "a") (get (rename nat (S_ "a") (S_ "c") two)) = None.
Proof.
  split; [apply pair_reachable|vm_compute; auto].
Qed.
(** A parameter whose name is taken is stored although the addition reports failure; it cannot be found. *)
Theorem C12_duplicate_refuted : exists s s' : pset nat, reachable nat s /\ add_new nat (par "a" Free 7) s = Ok (false, s') /\
  at_ nat 2 s' = Some 2 /\ deref nat s' 2 = Ok (par "a" Free 7) /\ (forall k, find nat k s' <> Some 2) /\ ~ consistent nat s'.
Proof.
  exists two, (get (add_new nat (par "a" Free 7) two)). split; [apply C12_example|]. repeat split; try (vm_compute; reflexivity).
  - intro k. cbn. repeat (destruct (str_eqb k _); [discriminate|]). discriminate.
  - intros (_ & _ & H). discriminate (H 0 2 0 2 (par "a" Free 2) (par "a" Free 7) eq_refl eq_refl eq_refl eq_refl eq_refl).
Qed.
(** A removed parameter is still found by name. *)
Theorem C12_unregister_refuted : exists s s' : pset nat, reachable nat s /\ unregister nat 0 s = (true, s') /\
  find nat (S_ "a") s' = Some 0 /\ (forall i, at_ nat i s' <> Some 0).
Proof.
  exists two, (snd (unregister nat 0 two)). split; [apply C12_example|]. repeat split; try (vm_compute; reflexivity).
  intros [|[|i]]; vm_compute; try discriminate.
Qed.
(** Adding one object twice makes the destructor delete it twice. *)
Theorem C12_double_delete_refuted : exists s s' : pset nat, reachable nat s /\ addToEnd nat (Some 0) s = Ok (false, s') /\
  destroy (vec nat s') [] = UB.
Proof. exists two, (get (addToEnd nat (Some 0) two)). split; [apply C12_example|]. split; reflexivity. Qed.
(** Subscripting with a name that is not in the set reads past the end of the map. *)
Theorem C12_subscript_refuted : forall D k, subscript D k (empty_set D) = UB.
Proof. reflexivity. Qed.

(** ** C13 *)
(** Preparing the minimiser selects exactly the floating parameters; then the i-th value reaches the i-th of them and
    nothing else changes. *)
Theorem C13_values : forall D (s : pset D) ps, consistent D s -> holds D s ps -> exists s1,
  prepare D s = Ok s1 /\ consistent D s1 /\ NoDup (mapping D s1) /\
  (forall j, In j (mapping D s1) <-> exists p, nth_error ps j = Some p /\ floats D p) /\
  (forall xs, List.length xs = List.length (mapping D s1) -> exists s2 qs,
     setFromMinuit D xs s1 = Ok s2 /\ holds D s2 qs /\ fitted D 0 xs ps qs).
Proof. exact prepare_fit'. Qed.
Print Assumptions C13_values.
Theorem C13_covariance : forall D zero (C : nat -> nat -> D) m, NoDup m -> exists cov F,
  store_cov D zero C (List.length m) = Some cov /\ covMatrixFull D zero cov m = Ok F /\
  (forall i j, i < List.length m -> j < List.length m -> covMatrix D cov (List.length m) i j = Ok (C i j)) /\
  (forall i j a b, nth_error m i = Some a -> nth_error m j = Some b -> F (a, b) = C i j) /\
  (forall a b, ~ (In a m /\ In b m) -> F (a, b) = zero).
Proof. exact cov_full. Qed.
Print Assumptions C13_covariance.
Example C13_example : match prepare nat two with
  | Ok s1 => mapping nat s1 = [0] /\ match setFromMinuit nat [9] s1 with
             | Ok s2 => map (fun p => mean nat p) (heap nat s2) = [9; 3] | _ => False end
  | _ => False end.
Proof. vm_compute. auto. Qed.
(** Setting the parameters one by one from the minimiser state also changes a parameter
    that was fixed since an earlier fit: its index is never cleared. *)
Theorem C13_stale_index_refuted : exists (s0 s1 s2 : pset nat) p q, reachable nat s0 /\
  prepare nat s0 = Ok s1 /\ bind (modify nat (setFlag nat Fix) 0 s1) (prepare nat) = Ok s2 /\
  deref nat s2 0 = Ok p /\ ~ floats nat p /\ setFromMinuitState nat [8] p = Ok q /\ mean nat p = 2 /\ mean nat q = 8.
Proof.
  set (r := pair_of Free).
  destruct (prepare nat r) as [s1| | |] eqn:E; try discriminate.
  destruct (bind (modify nat (setFlag nat Fix) 0 s1) (prepare nat)) as [s2| | |] eqn:E2; try (vm_compute in E; injection E as <-; discriminate).
  destruct (deref nat s2 0) as [p| | |] eqn:E3; try (vm_compute in E; injection E as <-; vm_compute in E2; injection E2 as <-; discriminate).
  exists r, s1, s2, p, (setCurrentFitVal nat 8 p).
  vm_compute in E; injection E as <-; vm_compute in E2; injection E2 as <-; vm_compute in E3; injection E3 as <-.
  repeat split; try (vm_compute; reflexivity).
  - exact (pair_reachable Free).
  - intros [F|F]; discriminate.
Qed.

(** ** C14 *)
Definition digit (w : str) : option nat := if str_eqb w (S_ "5") then Some 5 else if str_eqb w (S_ "1") then Some 1 else None.
(** A well-formed line adds what it declares, after what was there. *)
Theorem C14_declared : forall D (zero m9999 : D) num line ds (s : pset D) ps,
  declares D zero num flag_word line ds -> holds D s ps -> exists s' qs,
  tryParameter D zero m9999 num line s = Ok s' /\ holds D s' (ps ++ qs) /\ Forall2 (as_declared D m9999) ds qs.
Proof. exact tryParameter_adds. Qed.
Print Assumptions C14_declared.
(** The full claim: any other line declares nothing. True except that the empty word and any number but 5 pass as a
    flag. *)
Theorem C14_nothing_partial : forall D (zero m9999 : D) num line (s : pset D), Forall (fun w => ~ In "000"%char w) line ->
  (forall ds, ~ declares D zero num loose_flag line ds) -> tryParameter D zero m9999 num line s = Ok s.
Proof.
  intros D zero m9999 num line s H0 N. destruct (tryParameter_only D zero m9999 num line s H0) as [E|(ds & H & _)]; [exact E|].
  destruct (N ds H).
Qed.
Print Assumptions C14_nothing_partial.
Example C14_example : declares nat 0 digit flag_word [S_ "x"; S_ "Fix"; S_ "5"; S_ "1"]
    [{| d_name := S_ "x"; d_flag := 2; d_mean := 5; d_step := 1; d_min := 0; d_max := 0 |}] /\
  (forall ds, ~ declares nat 0 digit loose_flag [S_ "x"; S_ "Frei"; S_ "5"; S_ "1"] ds) /\
  (forall ds, ~ declares nat 0 digit loose_flag [S_ "x"; S_ "Fix"; S_ "5"] ds).
Proof.
  split; [apply d_scalar; try reflexivity; unfold flag_word; cbn; tauto|]. split; intros ds H; inversion H; subst.
  match goal with Q : loose_flag _ _ |- _ => revert Q end. intros [K|[[K|K] _]].
  - unfold flag_word in K. cbn in K. intuition discriminate.
  - discriminate.
  - destruct K as (sp & sg & d & E & Hsp & Hsg & _ & Hd). destruct sp as [|c sp].
    + destruct Hsg as [-> | [-> | ->]]; simpl in E; try discriminate. destruct d as [|c d]; [discriminate|]. injection E as <- _.
      apply Forall_inv in Hd. vm_compute in Hd. lia.
    + injection E as <- _. apply Forall_inv in Hsp. vm_compute in Hsp. intuition lia.
Qed.
(** An option with three numbers, say a binning "bins 17 5 1", becomes a parameter with a flag that does not exist. *)
Theorem C14_number_flag_refuted : exists line s', (forall f, ~ In (S_ "17", f) [(S_ "Free", 0); (S_ "Hide", 1); (S_ "Fix", 2);
    (S_ "CompileTimeConstant", 3); (S_ "Blind", 4); (S_ "0", 0); (S_ "1", 1); (S_ "2", 2); (S_ "3", 3); (S_ "4", 4)]%Z) /\
  nth_error line 1 = Some (S_ "17") /\ tryParameter nat 0 99 digit line (empty_set nat) = Ok s' /\
  holds nat s' [par "bins" 17 5].
Proof.
  exists [S_ "bins"; S_ "17"; S_ "5"; S_ "1"]. eexists. split; [intros f H; cbn in H; intuition discriminate|].
  split; [reflexivity|]. split; vm_compute; reflexivity.
Qed.

(** ** C16 *)
(** The constructor without a flag reads its own uninitialised members, whatever its arguments. *)
Theorem C16_value_refuted : forall D (zero m9999 : D) n m s mi ma, mkParam_value D zero m9999 n m s mi ma = UB.
Proof. reflexivity. Qed.
Print Assumptions C16_value_refuted.
(** With a flag, the parameter holds what was given. *)
Theorem C16_flag_partial : forall D (zero m9999 : D) n f m s mi ma,
  as_declared D m9999 {| d_name := n; d_flag := f; d_mean := m; d_step := s; d_min := mi; d_max := ma |}
    (mkParam D zero m9999 n f m s mi ma).
Proof. repeat split. Qed.
Print Assumptions C16_flag_partial.
Example C16_example : mean nat (par "a" Free 2) = 2 /\ isFree nat (par "a" Free 2) = true.
Proof. split; reflexivity. Qed.

(** ** C62 *)
(** After reading options in which each line declares one real parameter, every declared name finds a parameter as its
    last declaration says and no other name finds anything; without repeated names the set holds exactly the
    declarations, in order. The full claim is that there is one parameter for each name in any case. *)
Theorem C62_last_declaration_partial : forall D (zero m9999 : D) num imp h, Forall option_line h ->
  (forall l, In l h -> exists d, declares D zero num flag_word l [d]) ->
  exists s, load_options D zero m9999 num imp h = Ok s /\
  (forall k l d, last_with_key k h = Some l -> declares D zero num flag_word l [d] ->
    exists a p, Model.find D k s = Some a /\ deref D s a = Ok p /\ as_declared D m9999 d p) /\
  (forall k, last_with_key k h = None -> Model.find D k s = None) /\
  (NoDup (map (hd []) h) -> exists ps, holds D s ps /\
     Forall2 (fun l p => exists d, declares D zero num flag_word l [d] /\ as_declared D m9999 d p) h ps).
Proof. exact load_last. Qed.
Print Assumptions C62_last_declaration_partial.
(** A second declaration of a parameter makes two floating parameters of that name. *)
Definition override : list (list str) := [[S_ "x"; S_ "Free"; S_ "5"; S_ "1"]; [S_ "x"; S_ "Free"; S_ "1"; S_ "1"]].
Example C62_example : Forall option_line override /\ (forall l, In l override -> exists d, declares nat 0 digit flag_word l [d]).
Proof.
  split; [repeat constructor; cbn; intuition discriminate|]. intros l [<-|[<-|[]]]; eexists; apply d_scalar; try reflexivity; left; reflexivity.
Qed.
Theorem C62_override_refuted : exists h s, Forall option_line h /\
  load_options nat 0 99 digit (fun _ q => Ok q) h = Ok s /\ holds nat s [par "x" Free 1; par "x" Free 1].
Proof.
  exists override. eexists. split; [apply C62_example|]. split; vm_compute; reflexivity.
Qed.
