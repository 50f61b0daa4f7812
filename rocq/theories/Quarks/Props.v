(** C50: quark contents. *)
From Verif.Quarks Require Import Model Spec Proofs.
From Verif.Utilities Require Import Proofs Proofs2.

(** The alternatives of a sum (difference) are the pairwise sums (differences), each pair once, in order. *)
Theorem C50_sum (a b : content) : contents a -> contents b ->
  exists c d, add a b = Ok c /\ subtract a b = Ok d /\ contents c /\ contents d
    /\ List.length c = List.length a * List.length b /\ List.length d = List.length a * List.length b
    /\ (forall i j k, i < List.length a -> j < List.length b ->
          num (nth (i * List.length b + j) c []) k = (num (nth i a []) k + num (nth j b []) k)%Z
          /\ num (nth (i * List.length b + j) d []) k = (num (nth i a []) k - num (nth j b []) k)%Z).
Proof.
  intros Ca Cb. destruct (combine_contents qadd a b qadd_wf Ca Cb) as (c & Ec & Cc). destruct (combine_contents qsub a b qsub_wf Ca Cb) as (d & Ed & Cd).
  exists c, d. split; [exact Ec|]. split; [exact Ed|]. split; [exact Cc|]. split; [exact Cd|]. destruct Ca as [Na Fa], Cb as [Nb Fb].
  rewrite combine_ok in Ec, Ed by exact Nb.
  assert (Ec' : flat_map (fun x => map (fun y => qadd x y) b) a = c) by congruence. assert (Ed' : flat_map (fun x => map (fun y => qsub x y) b) a = d) by congruence.
  rewrite <- Ec', <- Ed', !product_length. split; [reflexivity|]. split; [reflexivity|]. intros i j k Hi Hj.
  rewrite Forall_forall in Fa, Fb. pose proof (Fa _ (nth_In a [] Hi)) as F1. pose proof (Fb _ (nth_In b [] Hj)) as F2.
  pose proof (product_nth qadd b [] [] [] a i j Hi Hj) as P1. pose proof (product_nth qsub b [] [] [] a i j Hi Hj) as P2.
  split; [etransitivity; [apply (f_equal (fun q => num q k)); exact P1|]|etransitivity; [apply (f_equal (fun q => num q k)); exact P2|]];
  [apply qadd_num|apply qsub_num]; auto.
Qed.
Print Assumptions C50_sum.

(** Charge conjugation negates every number, is an involution, commutes with addition and turns a difference into a sum. *)
Theorem C50_anti (a b : content) : contents a -> contents b ->
  List.length (anti a) = List.length a /\ (forall i k, num (nth i (anti a) []) k = (- num (nth i a []) k)%Z)
  /\ anti (anti a) = a
  /\ (forall c, add a b = Ok c -> add (anti a) (anti b) = Ok (anti c))
  /\ subtract a b = add a (anti b).
Proof.
  intros Ca Cb. split; [apply map_length|]. split.
  - intros i k. unfold anti. change (@nil Z) with (qanti []) at 1. rewrite map_nth. apply qanti_num.
  - split; [apply anti_anti, Ca|]. split; [intros c; apply anti_add; auto|apply subtract_anti; auto].
Qed.
Print Assumptions C50_anti.

(** A name counts a flavour for each of its small letters and against it for each capital; exchanging capitals and small letters conjugates. *)
Definition swap_case (c : ascii) : ascii := if is_upper c then ascii_of_nat (code c + 32) else if is_lower c then ascii_of_nat (code c - 32) else c.
Theorem C50_read_state (s : str) :
  flavours (read_state s)
  /\ (forall k, k < 6 -> num (read_state s) k = (occurrences (lower_name k) s - occurrences (upper_name k) s)%Z)
  /\ read_state (map swap_case s) = qanti (read_state s).
Proof.
  split; [apply (read_state_num s 0)|]. split; [intros k Hk; apply (read_state_num s k), Hk|].
  apply ext; [apply (read_state_num _ 0)|apply qanti_wf, (read_state_num s 0)|]. intros k. rewrite qanti_num. unfold read_state.
  destruct (read_loop (map swap_case s) k vacuum vacuum_wf) as [_ A]. destruct (read_loop s k vacuum vacuum_wf) as [_ B]. rewrite A, B, vacuum_num.
  rewrite map_map. clear. enough (fold_right Z.add 0 (map (fun x => read_delta (swap_case x) k) s) = - fold_right Z.add 0 (map (fun c => read_delta c k) s))%Z by lia.
  induction s as [|c s IH]; cbn [map fold_right]; [reflexivity|]. rewrite IH.
  enough (read_delta (swap_case c) k = - read_delta c k)%Z by lia. clear.
  do 6 (destruct k as [|k]; [destruct c as [[] [] [] [] [] [] [] []]; reflexivity|]).
  assert (Z0 : forall c, read_delta c (S (S (S (S (S (S k)))))) = 0%Z).
  { intros e. unfold read_delta. destruct (position gNames (to_lower e) 0) as [i|] eqn:E; [|reflexivity]. apply position_lt in E.
    destruct (Nat.eqb_spec i (S (S (S (S (S (S k))))))); [lia|reflexivity]. }
  rewrite !Z0. reflexivity.
Qed.
Print Assumptions C50_read_state.

(** Reading terminates and gives at least one alternative. Without "non-qQ" and "sqrt" the alternatives are the parts between brackets and signs that are not
    flavour neutral, in order, or the vacuum if there are none. *)
Theorem C50_read (s : str) : 
  (forall fuel, List.length s < fuel -> exists a, read_content fuel s = Ok a /\ contents a)
  /\ (forall fuel a, read_content (S fuel) s = Ok a -> contains (S_ "non-qQ") s = false -> contains (S_ "sqrt") s = false ->
      (exists t, In t (split_delims s ["("; ")"; "+"; "-"]%char false) /\ read_state t <> vacuum)
      /\ a = filter (fun q => negb (qeqb q vacuum)) (map read_state (split_delims s ["("; ")"; "+"; "-"]%char false))
      \/ (forall t, In t (split_delims s ["("; ")"; "+"; "-"]%char false) -> read_state t = vacuum) /\ a = [vacuum]).
Proof.
  split.
  - intros fuel Hf. unfold read_content. destruct (contains _ s); [eexists; split; [reflexivity|split; [discriminate|repeat constructor]]|].
    destruct (replaceAll_terminates (S_ "sqrt") [] s ltac:(discriminate) ltac:(cbn; lia) fuel Hf) as [r Er]. rewrite Er. cbn [bind].
    eexists. split; [reflexivity|]. set (l := map read_state _).
    assert (Fl : Forall flavours l). { apply Forall_forall. intros q Hq. apply in_map_iff in Hq as (t & <- & _). apply (read_state_num t 0). }
    destruct (filter _ l) as [|q qs] eqn:E; [split; [discriminate|repeat constructor]|]. split; [discriminate|]. rewrite <- E.
    apply Forall_forall. intros x Hx. apply filter_In in Hx as [Hx _]. rewrite Forall_forall in Fl. auto.
  - intros fuel a E H1 H2. unfold read_content in E. rewrite H1 in E.
    assert (Er : replaceAll (S fuel) s (S_ "sqrt") [] = Ok s).
    { unfold replaceAll. change (str_eqb (S_ "sqrt") []) with false. cbn [replace_loop]. unfold find_from. cbn [Nat.ltb skipn].
      unfold contains in H2. replace (List.length s <? 0) with false by (symmetry; apply Nat.ltb_ge; lia). destruct (find0 (S_ "sqrt") s); [discriminate|reflexivity]. }
    rewrite Er in E. cbn [bind] in E. set (toks := split_delims s _ false) in *.
    assert (Ef : filter (fun q => negb (is_vacuum q)) (map read_state toks) = filter (fun q => negb (qeqb q vacuum)) (map read_state toks)).
    { apply filter_ext_in. intros q Hq. f_equal. apply in_map_iff in Hq as (t & <- & _). destruct (read_state_num t 0) as [F _].
      destruct (is_vacuum (read_state t)) eqn:V; destruct (qeqb (read_state t) vacuum) eqn:W; auto.
      - apply is_vacuum_eq in V; auto. rewrite V in W. discriminate W.
      - apply qeqb_eq in W. apply is_vacuum_eq in W; auto. congruence. }
    rewrite Ef in E. destruct (filter (fun q => negb (qeqb q vacuum)) (map read_state toks)) as [|q qs] eqn:Q.
    + right. split; [|congruence]. intros t Ht. destruct (qeqb (read_state t) vacuum) eqn:W; [apply qeqb_eq, W|].
      assert (K : In (read_state t) []) by (rewrite <- Q; apply filter_In; rewrite W; split; auto; apply in_map, Ht). destruct K.
    + left. split; [|congruence]. assert (K : In q (q :: qs)) by (left; auto). rewrite <- Q in K. apply filter_In in K as [K1 K2].
      apply in_map_iff in K1 as (t & <- & Ht). exists t. split; auto. intros N. rewrite N in K2. discriminate K2.
Qed.
Print Assumptions C50_read.

(** Two contents compare equal if they share an alternative. *)
Theorem C50_equal (a b : content) :
  (same a b = true <-> exists x, In x a /\ In x b) /\ same a b = same b a /\ (same a a = true <-> a <> [])
  /\ (Forall flavours a -> Forall flavours b -> same (anti a) (anti b) = same a b).
Proof.
  split; [apply same_spec|]. split; [|split].
  - apply eq_true_iff_eq. rewrite !same_spec. firstorder.
  - rewrite same_spec. split; [intros (x & H & _) ->; destruct H|]. destruct a as [|x a]; [congruence|]. intros _. exists x. split; left; auto.
  - intros Fa Fb. apply eq_true_iff_eq. rewrite !same_spec. unfold anti. rewrite Forall_forall in Fa, Fb. split.
    + intros (x & H1 & H2). apply in_map_iff in H1 as (y & <- & Hy). apply in_map_iff in H2 as (z & Ez & Hz). exists y. split; auto.
      replace y with z; auto. rewrite <- (qanti_qanti z), <- (qanti_qanti y) by auto. congruence.
    + intros (x & H1 & H2). exists (qanti x). split; apply in_map; auto.
Qed.
Print Assumptions C50_equal.

(** A decay is taken as strong exactly if the decaying particle and the daughters can have the same total flavour numbers (always for a non-resonant one). *)
Theorem C50_strong (p : particle) : listed p ->
  exists b, is_strong p = Ok b /\
    (b = true <-> nonres_of p = true \/ exists x xs, flavour p x /\ Forall2 flavour (daughters_of p) xs
       /\ forall k, num x k = fold_right Z.add 0%Z (map (fun y => num y k) xs)).
Proof.
  intros L. destruct (quarks_spec p L) as (a & Ea & Ca & Sa). destruct (daughter_quarks_spec p L) as (b & Eb & Cb & Sb).
  unfold is_strong. rewrite Ea, Eb. cbn [bind]. eexists. split; [reflexivity|]. rewrite orb_true_iff, same_spec. split.
  - intros [(x & Hx & Hy) | N]; [right|left; auto]. apply Sa in Hx. apply Sb in Hy as (xs & F & [_ T]). exists x, xs. auto.
  - intros [N | (x & xs & Hx & F & T)]; [auto|left]. exists x. apply Sa in Hx. split; auto. apply Sb. exists xs. split; auto. split; auto.
    destruct Ca as [_ Fa]. rewrite Forall_forall in Fa. auto.
Qed.
Print Assumptions C50_strong.

(** [isWeakDecay] does not depend on the quarks: it is true for every particle that is not a non-resonant one. *)
Theorem C50_weak (p : particle) : listed p -> is_weak p = Ok (negb (nonres_of p)).
Proof.
  intros L. unfold is_weak. destruct (nonres_of p) eqn:N; cbn [negb]; [|reflexivity].
  destruct (quarks_spec p L) as (a & Ea & Ca & _). assert (Eb : daughter_quarks p = Ok a).
  { destruct p as [nr own ds]. cbn [nonres_of] in N. subst nr. exact Ea. }
  rewrite Ea, Eb. cbn [bind]. replace (same a a) with true; [reflexivity|]. symmetry. apply (C50_equal a a). apply Ca.
Qed.
Print Assumptions C50_weak.

(** A rho(770)+ decaying to pi+ pi0 conserves the flavour numbers, yet [isWeakDecay] returns true ("or" for "and" in Particle.cpp:776). *)
Theorem C50_weak_refuted : exists p, listed p /\ is_strong p = Ok true /\ is_weak p = Ok true.
Proof.
  exists (Part false [read_state (S_ "uD")] [Part false [read_state (S_ "uD")] []; Part false [vacuum] []]).
  split; [|split; reflexivity]. repeat split; try discriminate; repeat constructor.
Qed.
Print Assumptions C50_weak_refuted.

(** Comparison for equality is not transitive: K0 and K0bar are both "equal" to KS0. *)
Theorem C50_transitive_refuted : exists a b c, contents a /\ contents b /\ contents c /\ same a b = true /\ same b c = true /\ same a c = false
  /\ read_content 20 (S_ "p(dS)+q(Ds)") = Ok b.
Proof.
  exists [read_state (S_ "dS")], [read_state (S_ "dS"); read_state (S_ "Ds")], [read_state (S_ "Ds")].
  repeat split; try discriminate; repeat constructor.
Qed.
Print Assumptions C50_transitive_refuted.

(** Adding a content with two alternatives to itself in place leaves no alternative, because the argument is cleared; it is then equal to nothing, itself included. *)
Theorem C50_self_refuted : exists a b, contents a /\ add a a = Ok b /\ contents b /\ combine_self qadd a = [] /\ same (combine_self qadd a) (combine_self qadd a) = false.
Proof.
  exists [read_state (S_ "dS"); read_state (S_ "Ds")]. eexists. split; [split; [discriminate|repeat constructor]|]. split; [reflexivity|].
  split; [split; [discriminate|repeat constructor]|split; reflexivity].
Qed.
Print Assumptions C50_self_refuted.

(** D0 to KS0 pi+ pi- : not strong; K*0 to KS0 pi0: strong through one of the alternatives. *)
Example C50_example :
  read_content 20 (S_ "(uU-dD)/sqrt(2)") = Ok [vacuum]
  /\ let ks := [read_state (S_ "dS"); read_state (S_ "Ds")] in
     listed (Part false [read_state (S_ "cU")] [Part false ks []; Part false [read_state (S_ "uD")] []; Part false [read_state (S_ "Ud")] []])
     /\ is_strong (Part false [read_state (S_ "cU")] [Part false ks []; Part false [read_state (S_ "uD")] []; Part false [read_state (S_ "Ud")] []]) = Ok false
     /\ is_strong (Part false [read_state (S_ "dS")] [Part false ks []; Part false [vacuum] []]) = Ok true.
Proof. split; [reflexivity|]. split; [|split; reflexivity]. repeat split; try discriminate; repeat constructor. Qed.
