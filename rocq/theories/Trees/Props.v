From Verif.Common Require Import Prelude Writes.
From Coq Require Import Reals Permutation Lra Lia.
From Verif.Trees Require Import Model Spec Proofs Proofs2.
Local Open Scope nat_scope.

(** Reading a tree with the columns of the event format gives an event for each row, in order: every value is that of the column with the name of its
    place, in the units asked for. *)
Theorem C105_read : forall a t, branches a = [] -> filter_ a = None -> entryList a = [] -> rows t <> [] ->
  Permutation (map snd (format a)) (seq 0 (List.length (format a))) -> readable a t (map fst (format a)) ->
  exists l, loadFromTree as_read a t = (l, Ok tt) /\ Forall2 (read_as a t (named (format a))) (rows t) l.
Proof.
  intros a t HB HF HL HR P RD. assert (HC : conn a = format a) by (unfold conn; rewrite HB; reflexivity). destruct (perm_bound _ P) as [SL0 ND].
  assert (SL : forall x k, In (x, k) (conn a) -> k < List.length (format a)) by (rewrite HC; exact SL0). rewrite <- HC in ND, RD.
  assert (HE : hasEnergy a = true) by (unfold hasEnergy; rewrite HB; reflexivity).
  destruct (load_all as_read a t RD SL ND _ HF HL HR (body_energy a t SL HE)) as [A B]. rewrite HC in A.
  exists (fst (loadFromTree as_read a t)). split; [rewrite <- B; destruct (loadFromTree as_read a t); reflexivity|exact A].
Qed.
Print Assumptions C105_read.

(** With four branches for each particle the values are those of the branches in the order given. *)
Theorem C105_four : forall a t, List.length (branches a) = 4 * List.length (masses a) -> masses a <> [] -> List.length (branches a) <= List.length (format a) ->
  filter_ a = None -> entryList a = [] -> rows t <> [] -> readable a t (branches a) ->
  exists l, loadFromTree as_read a t = (l, Ok tt) /\ Forall2 (read_as a t (in_order (branches a))) (rows t) l.
Proof.
  intros a t H4 HM HS HF HL HR RD. assert (HE : hasEnergy a = true) by (unfold hasEnergy, nParticles; rewrite (proj2 (Nat.eqb_eq _ _) H4); apply orb_true_r).
  assert (HC : conn a = places a 0 (branches a)) by (unfold conn; destruct (branches a); [destruct (masses a); [contradiction|discriminate]|reflexivity]).
  assert (RD' : readable a t (map fst (conn a))) by (rewrite HC, places_fst; exact RD).
  assert (SL : forall x k, In (x, k) (conn a) -> k < List.length (format a)).
  { intros x k H. rewrite HC in H. apply places_In in H. destruct H as (j & E & ->). unfold place. rewrite HE. assert (j < List.length (branches a)) by (apply nth_error_Some; congruence). lia. }
  assert (ND : NoDup (map snd (conn a))) by (rewrite HC; apply places_nodup).
  destruct (load_all as_read a t RD' SL ND _ HF HL HR (body_energy a t SL HE)) as [A B].
  exists (fst (loadFromTree as_read a t)). split; [rewrite <- B; destruct (loadFromTree as_read a t); reflexivity|].
  eapply forall2_impl; [|exact A]. intros row e. apply read_as_mono. unfold named, in_order. intros x k H. rewrite HC. apply places_In. exists k. split; [exact H|]. unfold place. rewrite HE. reflexivity.
Qed.
Print Assumptions C105_four.

(** With three branches for each particle (and the decay time, if there is one) they are the momenta, and the energies are those of the particles of these
    masses, also when the momenta are not in GeV. *)
Theorem C105_three : forall a t extra_one, extra_one <= 1 -> List.length (branches a) = 3 * List.length (masses a) + extra_one -> 2 <= List.length (masses a) ->
  4 * List.length (masses a) + extra_one <= List.length (format a) -> filter_ a = None -> entryList a = [] -> rows t <> [] -> readable a t (branches a) ->
  exists l, loadFromTree as_read a t = (l, Ok tt) /\
    Forall2 (fun row e => read_as a t (momenta (branches a)) row e /\ on_shell (masses a) e) (rows t) l.
Proof.
  intros a t o HO H3 HM HS HF HL HR RD. assert (HE : hasEnergy a = false).
  { unfold hasEnergy, nParticles. apply orb_false_iff. split; apply Nat.eqb_neq; lia. }
  assert (HC : conn a = places a 0 (branches a)) by (unfold conn; destruct (branches a); [cbn in H3; lia|reflexivity]).
  assert (RD' : readable a t (map fst (conn a))) by (rewrite HC, places_fst; exact RD).
  assert (PL : forall x k, In (x, k) (conn a) -> exists j, j < List.length (branches a) /\ k = 4 * (j / 3) + j mod 3).
  { intros x k H. rewrite HC in H. apply places_In in H. destruct H as (j & E & ->). exists j. split; [apply nth_error_Some; congruence|]. unfold place. rewrite HE. reflexivity. }
  assert (SL : forall x k, In (x, k) (conn a) -> k < List.length (format a)).
  { intros x k H. destruct (PL x k H) as (j & Hj & ->). pose proof (Nat.div_mod j 3). pose proof (Nat.mod_upper_bound j 3). lia. }
  assert (ND : NoDup (map snd (conn a))) by (rewrite HC; apply places_nodup).
  assert (HK : forall x k i, In (x, k) (conn a) -> i < List.length (masses a) -> k <> 4 * i + 3).
  { intros x k i H _. destruct (PL x k H) as (j & Hj & ->). pose proof (Nat.mod_upper_bound j 3). lia. }
  assert (H4 : 4 * List.length (masses a) <= List.length (format a)) by lia.
  destruct (load_all as_read a t RD' SL ND _ HF HL HR (body_momenta a t SL HE H4 HK)) as [A B].
  exists (fst (loadFromTree as_read a t)). split; [rewrite <- B; destruct (loadFromTree as_read a t); reflexivity|].
  eapply forall2_impl; [|exact A]. intros row e [R O]. split; [|exact O]. revert R. apply read_as_mono. unfold named, momenta. intros x k (i & c & Hc & E & ->). rewrite HC.
  apply places_In. exists (3 * i + c). split; [exact E|]. unfold place. rewrite HE. cbn [Nat.add].
  replace ((3 * i + c) / 3) with i by (apply (Nat.div_unique _ 3 i c); lia). replace ((3 * i + c) mod 3) with c by (apply (Nat.mod_unique _ 3 i c); lia). reflexivity.
Qed.
Print Assumptions C105_three.

(** With a list of entries the events stored are those of the entries of the list, in its order. What is missing: after the last one the reader looks for
    a further element of the list. *)
Theorem C105_entry_list_partial : forall a t sel, branches a = [] -> filter_ a = None -> entryList a <> [] ->
  Forall2 (fun i r => nth_error (rows t) i = Some r) (entryList a) sel ->
  Permutation (map snd (format a)) (seq 0 (List.length (format a))) -> readable a t (map fst (format a)) ->
  Forall2 (read_as a t (named (format a))) sel (fst (loadFromTree as_read a t)) /\ snd (loadFromTree as_read a t) = UB.
Proof.
  intros a t sel HB HF HL HS P RD. assert (HC : conn a = format a) by (unfold conn; rewrite HB; reflexivity). destruct (perm_bound _ P) as [SL0 ND].
  assert (SL : forall x k, In (x, k) (conn a) -> k < List.length (format a)) by (rewrite HC; exact SL0). rewrite <- HC in ND, RD.
  assert (HE : hasEnergy a = true) by (unfold hasEnergy; rewrite HB; reflexivity). assert (HN : named (conn a) = named (format a)) by (f_equal; exact HC). rewrite <- HN.
  assert (En : entries a t = entryList a) by (unfold entries; rewrite HF; reflexivity).
  apply (load_list as_read a t RD SL ND); [rewrite En; exact HL|rewrite En; exact HS|exact (body_energy a t SL HE)].
Qed.
Print Assumptions C105_entry_list_partial.

(** With a filter that some rows pass the events stored are those of the rows that pass. *)
Theorem C105_filter_partial : forall a t f, branches a = [] -> filter_ a = Some f -> entryList a = [] -> filter f (rows t) <> [] ->
  Permutation (map snd (format a)) (seq 0 (List.length (format a))) -> readable a t (map fst (format a)) ->
  Forall2 (read_as a t (named (format a))) (filter f (rows t)) (fst (loadFromTree as_read a t)).
Proof.
  intros a t f HB HF HL HN P RD. assert (HC : conn a = format a) by (unfold conn; rewrite HB; reflexivity). destruct (perm_bound _ P) as [SL0 ND].
  assert (SL : forall x k, In (x, k) (conn a) -> k < List.length (format a)) by (rewrite HC; exact SL0). rewrite <- HC in ND, RD.
  assert (HE : hasEnergy a = true) by (unfold hasEnergy; rewrite HB; reflexivity). assert (HNm : named (conn a) = named (format a)) by (f_equal; exact HC). rewrite <- HNm.
  assert (En : entries a t = passing f 0 (rows t)) by (unfold entries; rewrite HF, HL; reflexivity).
  assert (S' : Forall2 (fun i r => nth_error (rows t) i = Some r) (entries a t) (filter f (rows t))) by (rewrite En; apply passing_sel; reflexivity).
  apply (load_list as_read a t RD SL ND); [|exact S'|exact (body_energy a t SL HE)]. intro C. rewrite C in S'. inversion S'. congruence.
Qed.
Print Assumptions C105_filter_partial.

(** A list of events that is written and read again, with the weight and the extensions named, is the same list. *)
Theorem C105_write_read : forall fmt ms names l, l <> [] -> Permutation (map snd fmt) (seq 0 (List.length fmt)) ->
  NoDup (map fst fmt ++ names ++ [S_ "genPdf"; S_ "weight"]) -> (forall e, In e l -> List.length (vals e) = List.length fmt + List.length names) ->
  exists t, write fmt (combine names (seq (List.length fmt) (List.length names))) l = Ok (Some t) /\
    loadFromTree as_read (Args fmt ms [] names true (S_ "weight") None [] 1) t = (l, Ok tt).
Proof.
  intros fmt ms names l HL P N LE. rewrite combine_numbered. set (ext := numbered (List.length fmt) names). destruct (perm_bound _ P) as [SL ND].
  set (t := Tree (map fst (fmt ++ ext) ++ [S_ "genPdf"; S_ "weight"]) (map (value_of (fmt ++ ext)) l)). exists t.
  assert (NX : map fst (fmt ++ ext) = map fst fmt ++ names) by (rewrite map_app; unfold ext; rewrite numbered_fst; reflexivity).
  split.
  - unfold write. destruct l as [|e0 l]; [contradiction|].
    replace (forallb (fun f => snd f <? List.length (vals e0)) (fmt ++ ext)) with true.
    + replace (forallb (fun x => List.length (vals x) =? List.length (vals e0)) (e0 :: l)) with true; [reflexivity|]. symmetry. apply forallb_forall. intros e He. apply Nat.eqb_eq.
      rewrite (LE e He), (LE e0 (or_introl eq_refl)). reflexivity.
    + symmetry. apply forallb_forall. intros [x k] H. apply Nat.ltb_lt. cbn [snd]. rewrite (LE e0 (or_introl eq_refl)). apply in_app_iff in H. destruct H as [H|H]; [apply SL in H; lia|].
      unfold ext in H. apply numbered_In in H. destruct H as (j & E & ->). assert (j < List.length names) by (apply nth_error_Some; congruence). lia.
  - set (a := Args fmt ms [] names true (S_ "weight") None [] 1). destruct (C105_read a t) as (l' & E & F); try reflexivity.
    + unfold t. cbn. destruct l; [contradiction|discriminate].
    + exact P.
    + split.
      * intros x H. unfold t. cbn [cols]. rewrite NX. apply in_app_iff. left. exact H.
      * exact N.
    + rewrite E. f_equal. unfold t in F. cbn [rows] in F. clear E HL. fold t in F. revert l' F LE. clear -P N NX SL ND.
      assert (NN : NoDup (map fst (fmt ++ ext))) by (rewrite NX; rewrite app_assoc in N; eapply nodup_prefix; exact N).
      assert (NG : ~ In (S_ "genPdf") (map fst (fmt ++ ext)) /\ ~ In (S_ "weight") (map fst (fmt ++ ext))).
      { rewrite NX. rewrite app_assoc in N. split; [apply NoDup_remove_2 in N|change [S_ "genPdf"; S_ "weight"] with ([S_ "genPdf"] ++ [S_ "weight"]) in N; rewrite app_assoc in N; apply NoDup_remove_2 in N];
          intro C; apply N; rewrite !in_app_iff; rewrite in_app_iff in C; tauto. }
      assert (TC : cols t = map fst (fmt ++ ext) ++ [S_ "genPdf"; S_ "weight"]) by reflexivity. generalize dependent t. intros t TC.
      induction l as [|e l IH]; intros l' F LE; cbn [map] in F; inversion F; subst; [reflexivity|]. f_equal; [|apply IH; [assumption|intros; apply LE; right; assumption]].
      match goal with H : read_as _ _ _ _ _ |- _ => destruct H as (R1 & R2 & R3 & R4 & R5) end. clear IH F. specialize (LE e (or_introl eq_refl)). cbn [format extra a units weightBranch getGenPdf] in *.
      destruct y as [v w g]. destruct e as [v0 w0 g0]. cbn [vals weight genPdf] in *. f_equal.
      * apply nth_error_ext_eq. intro k. destruct (Nat.lt_ge_cases k (List.length fmt)) as [Hk|Hk].
        -- assert (In k (map snd fmt)) as Hin by (apply (Permutation_in _ (Permutation_sym P)); apply in_seq; lia). apply in_map_iff in Hin. destruct Hin as ((x & k') & Ek & Hin). cbn in Ek. subst k'.
           rewrite (R2 x k Hin). unfold value_of. rewrite (find_name _ x k NN) by (apply in_app_iff; left; exact Hin). cbn [snd vals]. rewrite Rmult_1_r.
           symmetry. apply nth_error_nth'. lia.
        -- destruct (nth_error names (k - List.length fmt)) as [x|] eqn:Ex.
           ++ specialize (R3 _ _ Ex). replace (List.length fmt + (k - List.length fmt)) with k in R3 by lia. rewrite R3. unfold value_of.
              assert (Hlt : k - List.length fmt < List.length names) by (apply nth_error_Some; congruence).
              rewrite (find_name _ x k NN) by (apply in_app_iff; right; apply numbered_In; exists (k - List.length fmt); split; [exact Ex|lia]).
              cbn [snd vals]. symmetry. apply nth_error_nth'. lia.
           ++ apply nth_error_None in Ex. transitivity (@None R); [apply nth_error_None; lia|symmetry; apply nth_error_None; lia].
      * rewrite R4. unfold or_one. cbn [negb str_eqb]. replace (str_eqb (S_ "weight") []) with false by reflexivity. cbn [negb].
        destruct (in_dec str_dec (S_ "weight") (cols t)) as [H|H]; [|exfalso; apply H; rewrite TC; apply in_app_iff; right; right; left; reflexivity].
        unfold value_of. rewrite find_no_name by tauto. reflexivity.
      * rewrite R5. unfold or_one.
        destruct (in_dec str_dec (S_ "genPdf") (cols t)) as [H|H]; [|exfalso; apply H; rewrite TC; apply in_app_iff; right; left; reflexivity].
        unfold value_of. rewrite find_no_name by tauto. rewrite str_eqb_refl. reflexivity.
Qed.
Print Assumptions C105_write_read.

(** Two particles, with a decay time. *)
Definition fmt9 : list (str * nat) :=
  [(S_ "K_E", 3); (S_ "K_Px", 0); (S_ "K_Py", 1); (S_ "K_Pz", 2); (S_ "pi_E", 7); (S_ "pi_Px", 4); (S_ "pi_Py", 5); (S_ "pi_Pz", 6); (S_ "D0_decayTime", 8)].
Definition fmt8 : list (str * nat) := firstn 8 fmt9.
Definition tree9 (n : nat) : tree := Tree (map fst fmt9 ++ [S_ "genPdf"; S_ "w"; S_ "tag"]) (repeat (fun x => INR (List.length x)) n).
Lemma fmt9_perm : Permutation (map snd fmt9) (seq 0 9).
Proof. apply NoDup_Permutation; [repeat (constructor; [cbn; lia|]); constructor|apply seq_NoDup|]. intro k. rewrite in_seq. cbn. lia. Qed.
Ltac names := repeat (constructor; [cbn; intuition discriminate|]); constructor.
Lemma tree9_readable n gp (w : bool) u f el : readable (Args fmt9 [1; 2]%R [] [S_ "tag"] gp (if w then S_ "w" else []) f el u) (tree9 n) (map fst fmt9).
Proof. split; [cbn; tauto|]. destruct gp, w; cbn; names. Qed.
Lemma forall2_length {A B} (P : A -> B -> Prop) l l' : Forall2 P l l' -> List.length l' = List.length l.
Proof. induction 1; cbn; congruence. Qed.
Lemma forall2_one {A B} (P : A -> B -> Prop) x l : Forall2 P [x] l -> exists y, l = [y] /\ P x y.
Proof. intro F. inversion F as [|? y ? ? G F1]; subst. inversion F1; subst. exists y. split; [reflexivity|exact G]. Qed.
Lemma is_cons {A} (x : A) l : x :: l <> [].
Proof. discriminate. Qed.
Definition args9 := Args fmt9 [1; 2]%R [] [S_ "tag"] true (S_ "w") None [] (1 / 1000).
Example C105_read_ex : exists l, loadFromTree as_read args9 (tree9 3) = (l, Ok tt) /\ List.length l = 3 /\ Forall2 (read_as args9 (tree9 3) (named fmt9)) (rows (tree9 3)) l.
Proof.
  destruct (C105_read args9 (tree9 3) eq_refl eq_refl eq_refl (is_cons _ _) fmt9_perm (tree9_readable 3 true true _ _ _)) as (l & E & F).
  exists l. split; [exact E|]. split; [|exact F]. exact (forall2_length _ _ _ F).
Qed.
Definition names8 : list str := map S_ ["K_Px"; "K_Py"; "K_Pz"; "K_E"; "pi_Px"; "pi_Py"; "pi_Pz"; "pi_E"]%string.
Definition args8 := Args fmt8 [1; 2]%R names8 [S_ "tag"] false [] None [] 1.
Lemma args8_readable : readable args8 (tree9 3) names8.
Proof. split; [cbn; intuition (subst; auto 20)|cbn; names]. Qed.
Example C105_four_ex : exists l, loadFromTree as_read args8 (tree9 3) = (l, Ok tt).
Proof. destruct (C105_four args8 (tree9 3) eq_refl (is_cons _ _) ltac:(cbn; lia) eq_refl eq_refl (is_cons _ _) args8_readable) as (l & E & _). exists l. exact E. Qed.
Definition names7 : list str := map S_ ["K_Px"; "K_Py"; "K_Pz"; "pi_Px"; "pi_Py"; "pi_Pz"; "D0_decayTime"]%string.
Definition args7 := Args fmt9 [1; 2]%R names7 [S_ "tag"] false [] None [] 1.
Lemma args7_readable : readable args7 (tree9 3) names7.
Proof. split; [cbn; intuition (subst; auto 20)|cbn; names]. Qed.
Example C105_three_ex : exists l, loadFromTree as_read args7 (tree9 3) = (l, Ok tt) /\ Forall2 (fun row e => nth_error (vals e) 8 = Some (row (S_ "D0_decayTime") * 1)%R) (rows (tree9 3)) l.
Proof.
  destruct (C105_three args7 (tree9 3) 1 ltac:(lia) eq_refl ltac:(cbn; lia) ltac:(cbn; lia) eq_refl eq_refl (is_cons _ _) args7_readable) as (l & E & F). exists l. split; [exact E|].
  eapply forall2_impl; [|exact F]. intros row e [(_ & R & _) _]. apply (R (S_ "D0_decayTime") 8). exists 2, 0. repeat split; lia.
Qed.
Definition args2 := Args fmt9 [1; 2]%R [] [S_ "tag"] true [] None [2; 0] 1.
Example C105_entry_list_ex : List.length (fst (loadFromTree as_read args2 (tree9 3))) = 2.
Proof.
  refine (forall2_length _ (repeat (fun x => INR (List.length x)) 2) _ (proj1 (C105_entry_list_partial args2 (tree9 3) _ eq_refl eq_refl (is_cons _ _) _ fmt9_perm (tree9_readable 3 true false _ _ _)))).
  constructor; [reflexivity|]. constructor; [reflexivity|]. constructor.
Qed.
Definition argsf := Args fmt9 [1; 2]%R [] [S_ "tag"] true [] (Some (fun _ => true)) [] 1.
Example C105_filter_ex : List.length (fst (loadFromTree as_read argsf (tree9 3))) = 3.
Proof. exact (forall2_length _ _ _ (C105_filter_partial argsf (tree9 3) (fun _ => true) eq_refl eq_refl eq_refl (is_cons _ _) fmt9_perm (tree9_readable 3 true false _ _ _))). Qed.
Example C105_write_read_ex : exists t, write fmt8 [(S_ "tag", 8)] [Event [1; 2; 3; 9; 4; 5; 6; 10; 7]%R 2 3; Event [1; 2; 3; 9; 4; 5; 6; 10; 8]%R 4 5] = Ok (Some t).
Proof.
  destruct (C105_write_read fmt8 [] [S_ "tag"] [Event [1; 2; 3; 9; 4; 5; 6; 10; 7]%R 2 3; Event [1; 2; 3; 9; 4; 5; 6; 10; 8]%R 4 5]) as (t & E & _); [discriminate| |cbn; names| |exists t; exact E].
  - apply NoDup_Permutation; [repeat (constructor; [cbn; lia|]); constructor|apply seq_NoDup|]. intro k. rewrite in_seq. cbn. lia.
  - intros e [<-|[<-|[]]]; reflexivity.
Qed.

(** A filter that no entry passes is as no filter: all entries are read (src/EventList.cpp:126, src/TreeReader.cpp:26). *)
Theorem C105_filter_refuted : exists a t f, branches a = [] /\ filter_ a = Some f /\ entryList a = [] /\ (forall r, In r (rows t) -> f r = false) /\
  Permutation (map snd (format a)) (seq 0 (List.length (format a))) /\ readable a t (map fst (format a)) /\ List.length (fst (loadFromTree as_read a t)) = 3.
Proof.
  exists (Args fmt9 [1; 2]%R [] [S_ "tag"] true [] (Some (fun _ => false)) [] 1), (tree9 3), (fun _ => false).
  split; [reflexivity|]. split; [reflexivity|]. split; [reflexivity|]. split; [reflexivity|]. split; [exact fmt9_perm|]. split; [exact (tree9_readable 3 true false _ _ _)|]. reflexivity.
Qed.
Print Assumptions C105_filter_refuted.

(** A filter together with a list of entries does not replace the list, as the warning says, but is added to it: entries are read twice
    (src/EventList.cpp:116-125). *)
Theorem C105_filter_and_list_refuted : exists a t f, branches a = [] /\ filter_ a = Some f /\ entryList a = [0; 1] /\ (forall r, f r = true) /\ List.length (rows t) = 3 /\
  Permutation (map snd (format a)) (seq 0 (List.length (format a))) /\ readable a t (map fst (format a)) /\ List.length (fst (loadFromTree as_read a t)) = 5.
Proof.
  exists (Args fmt9 [1; 2]%R [] [S_ "tag"] true [] (Some (fun _ => true)) [0; 1] 1), (tree9 3), (fun _ => true).
  split; [reflexivity|]. split; [reflexivity|]. split; [reflexivity|]. split; [reflexivity|]. split; [reflexivity|]. split; [exact fmt9_perm|]. split; [exact (tree9_readable 3 true false _ _ _)|]. reflexivity.
Qed.
Print Assumptions C105_filter_and_list_refuted.

(** With a list of entries (or a filter) the increment after the last entry reads the list beyond its end (AmpGen/TreeReader.h:46-51, src/TreeReader.cpp:26). *)
Theorem C105_entry_list_refuted : exists a t, branches a = [] /\ filter_ a = None /\ (forall i, In i (entryList a) -> i < List.length (rows t)) /\
  Permutation (map snd (format a)) (seq 0 (List.length (format a))) /\ readable a t (map fst (format a)) /\ snd (loadFromTree as_read a t) = UB.
Proof.
  exists (Args fmt9 [1; 2]%R [] [S_ "tag"] true [] None [2; 0] 1), (tree9 3).
  split; [reflexivity|]. split; [reflexivity|]. split; [cbn; lia|]. split; [exact fmt9_perm|]. split; [exact (tree9_readable 3 true false _ _ _)|]. reflexivity.
Qed.
Print Assumptions C105_entry_list_refuted.

(** Branches for all values of a time-dependent event, in the order of the event: the number of branches is not four times that of the particles, so they are
    taken for momenta without energies, and addresses outside the event are used (src/EventList.cpp:91, 98). *)
Theorem C105_time_refuted : exists a t, List.length (branches a) = List.length (format a) /\ List.length (format a) = 4 * List.length (masses a) + 1 /\ readable a t (branches a) /\
  filter_ a = None /\ entryList a = [] /\ rows t <> [] /\ loadFromTree as_read a t = ([], UB).
Proof.
  exists (Args fmt9 [1; 2]%R (map S_ ["K_Px"; "K_Py"; "K_Pz"; "K_E"; "pi_Px"; "pi_Py"; "pi_Pz"; "pi_E"; "D0_decayTime"]%string) [] false [] None [] 1), (tree9 3).
  split; [reflexivity|]. split; [reflexivity|]. split; [split; [cbn; intuition (subst; auto 20)|cbn; names]|]. split; [reflexivity|]. split; [reflexivity|]. split; [discriminate|]. reflexivity.
Qed.
Print Assumptions C105_time_refuted.

(** The units are those of energy, but also the decay time is multiplied by them (src/EventList.cpp:131). *)
Theorem C105_units_refuted : exists a t row, rows t = [row] /\ units a = (1 / 1000)%R /\ In (S_ "D0_decayTime", 8) (format a) /\
  Forall (fun e => nth_error (vals e) 8 <> Some (row (S_ "D0_decayTime"))) (fst (loadFromTree as_read a t)) /\ List.length (fst (loadFromTree as_read a t)) = 1.
Proof.
  exists (Args fmt9 [1; 2]%R [] [S_ "tag"] true [] None [] (1 / 1000)), (tree9 1), (fun x => INR (List.length x)).
  split; [reflexivity|]. split; [reflexivity|]. split; [cbn; tauto|]. split; [|reflexivity].
  destruct (C105_read (Args fmt9 [1; 2]%R [] [S_ "tag"] true [] None [] (1 / 1000)) (tree9 1) eq_refl eq_refl eq_refl (is_cons _ _) fmt9_perm (tree9_readable 1 true false _ _ [])) as (l & E & F).
  rewrite E. cbn [fst]. destruct (forall2_one _ _ _ F) as (e & -> & _ & R & _). constructor; [|constructor].
  rewrite (R (S_ "D0_decayTime") 8) by (cbn; tauto). cbn [units]. intro C. injection C as C.
  change (INR (List.length (S_ "D0_decayTime"))) with (INR 12) in C. cbn in C. lra.
Qed.
Print Assumptions C105_units_refuted.

(** A list of events that is written and read again without further arguments has lost its weights: they are written, but only read when the branch is
    named (src/EventList.cpp:78, 115, 160). *)
Theorem C105_weight_refuted : exists fmt l t, write fmt [] l = Ok (Some t) /\ readable (Args fmt [1; 2]%R [] [] true [] None [] 1) t (map fst fmt) /\
  Permutation (map snd fmt) (seq 0 (List.length fmt)) /\ Exists (fun e => weight e <> 1%R) l /\
  Forall (fun e => weight e = 1%R) (fst (loadFromTree as_read (Args fmt [1; 2]%R [] [] true [] None [] 1) t)).
Proof.
  eexists fmt9, [Event [1; 2; 3; 9; 4; 5; 6; 10; 7]%R 2 3], _. split; [reflexivity|]. split; [split; [cbn; tauto|cbn; names]|]. split; [exact fmt9_perm|].
  split; [constructor; cbn; lra|]. match goal with |- Forall _ (fst (loadFromTree _ ?a ?t)) => destruct (C105_read a t eq_refl eq_refl eq_refl (is_cons _ _) fmt9_perm) as (l & E & F) end.
  - split; [cbn; tauto|cbn; names].
  - rewrite E. cbn [fst]. destruct (forall2_one _ _ _ F) as (e & -> & _ & _ & _ & W & _). constructor; [|constructor]. rewrite W. reflexivity.
Qed.
Print Assumptions C105_weight_refuted.

(** A column read to two places (here as an extra branch too): only the address given last is filled, and what has never been set is copied
    (AmpGen/TreeReader.h:27-31, src/TreeReader.cpp:32-35). *)
Theorem C105_twice_refuted : exists a t, branches a = [] /\ extra a = [S_ "D0_decayTime"] /\ (forall x, In x (map fst (format a) ++ extra a) -> In x (cols t)) /\ rows t <> [] /\
  filter_ a = None /\ entryList a = [] /\ loadFromTree as_read a t = ([], UB).
Proof.
  exists (Args fmt9 [1; 2]%R [] [S_ "D0_decayTime"] true [] None [] 1), (tree9 3). split; [reflexivity|]. split; [reflexivity|]. split; [cbn; tauto|]. split; [discriminate|]. split; [reflexivity|]. split; reflexivity.
Qed.
Print Assumptions C105_twice_refuted.
