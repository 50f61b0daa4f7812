From Verif.Common Require Import Prelude.
From Coq Require Import Reals Lra Lia.
From Verif.Store Require Import Model.
From Verif.Simd Require Import Model Spec Proofs.
Local Open Scope R_scope.

Definition as_event (i : nat) (e : event) : event := Event (values e) (weight e) (genPdf e) i.

Lemma conv_values nf l i : of_size nf l -> l <> [] -> List.length (values (conv l i)) = nf.
Proof.
  unfold of_size. rewrite Forall_forall. intros H Hl. unfold conv. destruct (nth_error l i) as [e|] eqn:E; [apply H; apply nth_error_In in E; exact E|].
  cbn. apply H. apply last_in. exact Hl.
Qed.
Lemma loaded_values w nf l i : of_size nf l -> (w <= List.length l)%nat -> (i < List.length l + w)%nat -> (0 < w)%nat -> List.length (values (loaded w l i)) = nf.
Proof.
  unfold of_size. rewrite Forall_forall. intros H Hl Hi Hw. unfold loaded. destruct (Nat.ltb_spec i (List.length l)) as [Q|Q]; [apply H; apply nth_In; exact Q|].
  cbn. apply H. apply nth_In. lia.
Qed.
Lemma loaded_nth w l i e : nth_error l i = Some e -> loaded w l i = e.
Proof.
  intro H. unfold loaded. assert (i < List.length l)%nat by (apply nth_error_Some; congruence). rewrite (proj2 (Nat.ltb_lt _ _)) by assumption. apply nth_error_nth. exact H.
Qed.
Lemma conv_nth l i e : nth_error l i = Some e -> conv l i = e.
Proof. intro H. unfold conv. rewrite H. reflexivity. Qed.
Lemma position w n i : (0 < w)%nat -> (N.of_nat n < 4294967296)%N -> (i < n)%nat -> (i / w < blocks w n)%nat.
Proof. intros. apply Store.Proofs.blocks_hold; assumption. Qed.
Lemma seq_events l E : (forall i e, nth_error l i = Some e -> E i = e) -> map (fun i => renumber i (E i)) (seq 0 (List.length l)) = numbered l.
Proof.
  intro H. unfold numbered. cut (forall a l', (forall i e, nth_error l' i = Some e -> E (a + i)%nat = e) ->
    map (fun i => renumber i (E i)) (seq a (List.length l')) = map (fun p => Event (values (snd p)) (weight (snd p)) (genPdf (snd p)) (fst p)) (combine (seq a (List.length l')) l')).
  { intro K. exact (K 0%nat l H). }
  clear. intros a l. revert a. induction l as [| x l IH]; intros a H; [reflexivity|]. cbn [List.length seq map combine fst snd]. f_equal.
  - unfold renumber. rewrite <- (H 0%nat x eq_refl), Nat.add_0_r. reflexivity.
  - apply IH. intros i e He. replace (S a + i)%nat with (a + S i)%nat by lia. apply (H (S i) e He).
Qed.

(** A list converted to blocks has the same number of events, and event [i] of it is event [i] of the list. *)
Theorem C102_conversion w nf l : (0 < w)%nat -> of_size nf l -> (N.of_nat (List.length l) < 4294967296)%N ->
  exists s, from_list w nf l = Ok s /\ n_entries (data s) = List.length l /\ forall i e, nth_error l i = Some e -> at_ w s i = Ok (as_event i e).
Proof.
  intros Hw Hsz Hn. destruct (from_list_ok w Hw nf l Hsz) as (s & A & D & H). exists s. split; [exact A|]. split; [apply D|]. intros i e He.
  assert (Hi : (i < List.length l)%nat) by (apply nth_error_Some; congruence).
  rewrite (at_ok w Hw (List.length l) nf s (conv l) i D H); [| apply position; assumption | apply conv_values; [exact Hsz | intros ->; destruct i; discriminate]].
  rewrite (conv_nth l i e He). reflexivity.
Qed.
Print Assumptions C102_conversion.
(** The same of a list that is read. *)
Theorem C102_loading_partial w nf l s0 : (0 < w)%nat -> of_size nf l -> (N.of_nat (List.length l) < 4294967296)%N -> l = [] \/ (w <= List.length l)%nat ->
  exists s, load w nf l s0 = Ok s /\ n_entries (data s) = List.length l /\ forall i e, nth_error l i = Some e -> at_ w s i = Ok (as_event i e).
Proof.
  intros Hw Hsz Hn Hor. destruct (load_ok w Hw nf l s0 Hsz Hor Hn) as (s & A & D & H). exists s. split; [exact A|]. split; [apply D|]. intros i e He.
  assert (Hi : (i < List.length l)%nat) by (apply nth_error_Some; congruence).
  rewrite (at_ok w Hw (List.length l) nf s (loaded w l) i D H); [| apply position; assumption |].
  - rewrite (loaded_nth w l i e He). reflexivity.
  - destruct Hor as [->|Hl]; [destruct i; discriminate|]. apply loaded_values; try assumption. lia.
Qed.
Print Assumptions C102_loading_partial.
(** With fewer events than a block holds, reading them is undefined behaviour: the lanes behind the events are taken from events
    without values. *)
Theorem C102_loading_refuted : exists w nf l s0, (0 < w)%nat /\ of_size nf l /\ load w nf l s0 = UB.
Proof.
  exists 4%nat, 1%nat, [Event [0] 1 1 0], (empty_list 4 1). split; [lia|]. assert (H : of_size 1 [Event [0] 1 1 0]) by (repeat constructor). split; [exact H|].
  apply load_short; [lia | exact H | lia | cbn; lia].
Qed.
Print Assumptions C102_loading_refuted.

(** A loop over a converted or loaded list visits the events in order, each with its number. *)
Theorem C102_loop_partial w nf l s0 : (0 < w)%nat -> of_size nf l -> (N.of_nat (List.length l) < 4294967296)%N -> (List.length l mod w <> 0)%nat ->
  (exists s, from_list w nf l = Ok s /\ iterate w s = Ok (numbered l)) /\
  ((w <= List.length l)%nat -> exists s, load w nf l s0 = Ok s /\ iterate w s = Ok (numbered l)).
Proof.
  intros Hw Hsz Hn Hm. assert (Hl : l <> []) by (intros ->; apply Hm; apply Nat.mod_0_l; lia). destruct (blocks_aligned w Hw (List.length l) Hn) as [B1 B2]. split.
  - destruct (from_list_ok w Hw nf l Hsz) as (s & A & AB). exists s. split; [exact A|].
    rewrite (iterate_ok w Hw (List.length l) nf s (conv l) Hn Hm AB) by (intros i _; apply conv_values; assumption). f_equal. apply seq_events. apply conv_nth.
  - intro Hle. destruct (load_ok w Hw nf l s0 Hsz (or_intror Hle) Hn) as (s & A & AB). exists s. split; [exact A|].
    rewrite (iterate_ok w Hw (List.length l) nf s (loaded w l) Hn Hm AB) by (intros i Hi; apply loaded_values; try assumption; lia). f_equal. apply seq_events. apply loaded_nth.
Qed.
Print Assumptions C102_loop_partial.
(** When the number of events is a multiple of the number in a block, the step past the last event reads the block behind the last
    one: every range-for over such a list reads outside the storage. *)
Theorem C102_loop_refuted : exists w nf l s, (0 < w)%nat /\ of_size nf l /\ from_list w nf l = Ok s /\ iterate w s = UB.
Proof.
  set (e := Event [0] 1 1 0). assert (H : of_size 1 [e; e]) by (repeat constructor).
  destruct (from_list_ok 2 ltac:(lia) 1 [e; e] H) as (s & A & AB). exists 2%nat, 1%nat, [e; e], s. split; [lia|]. split; [exact H|]. split; [exact A|].
  assert (L : (2 <= List.length (weights s))%nat /\ (2 <= List.length (gens s))%nat).
  { unfold from_list, resize, empty_list, construct in A. cbn in A. destruct (Req_EM_T 0 0) as [_|]; [|lra]. destruct (Req_EM_T 1 0) as [|_]; [lra|]. cbn in A. injection A as <-. cbn. lia. }
  unfold iterate. pose proof AB as (D & HB). pose proof D as (D1 & D2 & _). rewrite D1, D2.
  change (blocks 2 (List.length [e; e])) with 1%nat. cbn [List.length Nat.mul Nat.add Nat.ltb Nat.leb].
  assert (S0 : scatter 2 s 0 = Ok (map (fun k => renumber (k + 0 / 2 * 2) (conv [e; e] (0 / 2 * 2 + k)%nat)) (seq 0 2))).
  { assert (H0 : (0 < blocks 2 2)%nat) by (change (blocks 2 2) with 1%nat; lia).
    exact (scatter_ok 2 ltac:(lia) 2 1 s 0 (fun k => conv [e; e] (0 * 2 + k)%nat) D H0 (HB 0%nat H0) (fun k _ => conv_values 1 [e; e] _ H ltac:(discriminate))). }
  change (if (0 <? 2)%nat then scatter 2 s 0 else Ok (repeat blank 2)) with (scatter 2 s 0). rewrite S0. cbn [bind].
  apply (walk_end 2 ltac:(lia) 2 1 s (conv [e; e]) AB); try reflexivity; try lia.
  - intros i _. apply conv_values; [exact H | discriminate].
  - change (blocks 2 2) with 1%nat. lia.
  - change (blocks 2 2) with 1%nat. lia.
Qed.
Print Assumptions C102_loop_refuted.

(** transform applies the function to every event once, given its number. *)
Theorem C102_transform_partial w nf l f : (0 < w)%nat -> of_size nf l -> (N.of_nat (List.length l) < 4294967296)%N -> (List.length l mod w <> 0)%nat ->
  (forall e, List.length (values (f e)) = List.length (values e)) ->
  exists s s', from_list w nf l = Ok s /\ transform w f s = Ok s' /\ n_entries (data s') = List.length l /\
    forall i e, nth_error l i = Some e -> at_ w s' i = Ok (as_event i (f (as_event i e))).
Proof.
  intros Hw Hsz Hn Hm Hf. assert (Hl : l <> []) by (intros ->; apply Hm; apply Nat.mod_0_l; lia). destruct (blocks_aligned w Hw (List.length l) Hn) as [B1 B2].
  assert (B3 : (List.length l < w * blocks w (List.length l))%nat).
  { destruct (Nat.eq_dec (List.length l) (w * blocks w (List.length l))) as [X|X]; [| lia]. contradiction Hm. rewrite X, Nat.mul_comm. apply Nat.mod_mul. lia. }
  destruct (from_list_ok w Hw nf l Hsz) as (s & A & D & H). set (E := fun i => renumber i (conv l i)).
  assert (EL : forall i, List.length (values (E i)) = nf) by (intro i; unfold E; cbn; apply conv_values; assumption).
  destruct (walk_modify_ok w Hw f Hf E ltac:(reflexivity) (List.length l) nf B3 Hm (fun i _ => EL i) (List.length l) 0%nat s eq_refl) as (s' & W & D' & H').
  { split; [exact D|]. intros b Hb. rewrite Nat.div_0_l by lia. exact (H b Hb). }
  exists s, s'. split; [exact A|]. split; [| split; [apply D'|]].
  - unfold transform. pose proof D as (D1 & D2 & _). rewrite D1, D2. rewrite (proj2 (Nat.ltb_lt 0 (w * blocks w (List.length l)))) by lia.
    assert (S0 : scatter w s 0 = Ok (map (fun k => cur f E 0 (0 / w * w + k)) (seq 0 w))).
    { rewrite Nat.div_0_l by lia. assert (H0 : (0 < blocks w (List.length l))%nat) by nia.
      pose proof (scatter_ok w Hw (List.length l) nf s 0 (fun k => conv l (0 * w + k)%nat) D H0 (H 0%nat H0) (fun k _ => conv_values nf l _ Hsz Hl)) as Q.
      change (0 * w)%nat with 0%nat in Q. rewrite Q. f_equal. apply map_ext. intro k. rewrite Nat.add_0_r. reflexivity. }
    rewrite S0. cbn [bind]. exact W.
  - intros i e He. assert (Hi : (i < List.length l)%nat) by (apply nth_error_Some; congruence).
    rewrite (at_ok w Hw (List.length l) nf s' (cur f E (List.length l)) i D' H' (position w _ i Hw Hn Hi) (cur_values f Hf E nf _ i (EL i))).
    unfold cur. rewrite (proj2 (Nat.ltb_lt _ _) Hi). unfold E. rewrite (conv_nth l i e He). reflexivity.
Qed.
Print Assumptions C102_transform_partial.

(** The likelihood and the averages of a list that is read are those of its events. *)
Theorem C102_sums_loaded w nf l s0 pdf F : (0 < w)%nat -> of_size nf l -> (N.of_nat (List.length l) < 4294967296)%N -> (w <= List.length l)%nat ->
  exists s, load w nf l s0 = Ok s /\ getVal w s pdf = Ok (loglikelihood pdf l) /\ average w s F = Ok (mean F l).
Proof.
  intros Hw Hsz Hn Hle. destruct (load_ok w Hw nf l s0 Hsz (or_intror Hle) Hn) as (s & A & AB). exists s. split; [exact A|].
  destruct (blocks_aligned w Hw (List.length l) Hn) as [B1 B2].
  assert (EL : forall i, (i < w * blocks w (List.length l))%nat -> List.length (values (loaded w l i)) = nf) by (intros i Hi; apply loaded_values; try assumption; lia).
  assert (PW : forall i, (List.length l <= i < w * blocks w (List.length l))%nat -> weight (loaded w l i) = 0).
  { intros i Hi. unfold loaded. rewrite (proj2 (Nat.ltb_ge _ _)) by lia. reflexivity. }
  rewrite (getVal_ok w Hw _ nf s (loaded w l) pdf AB EL), (average_ok w Hw _ nf s (loaded w l) F AB EL). unfold loglikelihood, mean.
  rewrite (padded_total (fun e => weight e * ln (pdf (values e))) l (loaded w l) _ 0 B1 (loaded_nth w l)) by (intros i Hi; rewrite PW by exact Hi; lra).
  rewrite (padded_total (fun e => weight e / genPdf e * F (values e)) l (loaded w l) _ 0 B1 (loaded_nth w l)) by (intros i Hi; rewrite PW by exact Hi; unfold Rdiv; lra).
  rewrite (padded_total (fun e => weight e / genPdf e) l (loaded w l) _ 0 B1 (loaded_nth w l)) by (intros i Hi; rewrite PW by exact Hi; unfold Rdiv; lra).
  split; do 2 f_equal; [lra | lra |]. f_equal. lra.
Qed.
Print Assumptions C102_sums_loaded.

(** Those of a converted list are those of the list in which the last event is repeated until its length is a multiple of the number
    of events in a block (for the averages, with a density of one). *)
Theorem C102_sums_converted w nf l e pdf F : (0 < w)%nat -> of_size nf (l ++ [e]) -> (N.of_nat (List.length (l ++ [e])) < 4294967296)%N ->
  exists s pad, from_list w nf (l ++ [e]) = Ok s /\ (pad < w)%nat /\ (List.length (l ++ [e]) + pad) mod w = 0%nat /\
    getVal w s pdf = Ok (loglikelihood pdf (l ++ [e] ++ repeat e pad)) /\
    average w s F = Ok (mean F (l ++ [e] ++ repeat (Event (values e) (weight e) 1 0) pad)).
Proof.
  intros Hw Hsz Hn. destruct (from_list_ok w Hw nf (l ++ [e]) Hsz) as (s & A & AB). destruct (blocks_aligned w Hw (List.length (l ++ [e])) Hn) as [B1 B2].
  exists s, (w * blocks w (List.length (l ++ [e])) - List.length (l ++ [e]))%nat. split; [exact A|]. split; [lia|]. split.
  { replace (List.length (l ++ [e]) + (w * blocks w (List.length (l ++ [e])) - List.length (l ++ [e])))%nat with (blocks w (List.length (l ++ [e])) * w)%nat by lia. apply Nat.mod_mul. lia. }
  assert (Hl : l ++ [e] <> []) by (destruct l; discriminate).
  assert (EL : forall i, (i < w * blocks w (List.length (l ++ [e])))%nat -> List.length (values (conv (l ++ [e]) i)) = nf) by (intros i Hi; apply conv_values; assumption).
  assert (Ep : forall i, (List.length (l ++ [e]) <= i < w * blocks w (List.length (l ++ [e])))%nat -> conv (l ++ [e]) i = Event (values e) (weight e) 1 0).
  { intros i Hi. unfold conv, lastof. rewrite last_last, (proj2 (nth_error_None _ _)) by lia. reflexivity. }
  rewrite (getVal_ok w Hw _ nf s (conv (l ++ [e])) pdf AB EL), (average_ok w Hw _ nf s (conv (l ++ [e])) F AB EL). unfold loglikelihood, mean.
  rewrite (padded_total (fun x => weight x * ln (pdf (values x))) (l ++ [e]) (conv (l ++ [e])) _ (weight e * ln (pdf (values e))) B1 (conv_nth _)) by (intros i Hi; rewrite Ep by exact Hi; reflexivity).
  rewrite (padded_total (fun x => weight x / genPdf x * F (values x)) (l ++ [e]) (conv (l ++ [e])) _ (weight e / 1 * F (values e)) B1 (conv_nth _)) by (intros i Hi; rewrite Ep by exact Hi; reflexivity).
  rewrite (padded_total (fun x => weight x / genPdf x) (l ++ [e]) (conv (l ++ [e])) _ (weight e / 1) B1 (conv_nth _)) by (intros i Hi; rewrite Ep by exact Hi; reflexivity).
  set (pad := (w * blocks w (List.length (l ++ [e])) - List.length (l ++ [e]))%nat).
  assert (TR : forall (g : event -> R) x m, total g (repeat x m) = INR m * g x).
  { intros g x m. induction m as [| m IH]; [cbn; lra|]. cbn [repeat total]. rewrite IH, S_INR. lra. }
  rewrite !app_assoc, !total_app, !TR. cbn [values weight genPdf]. split; reflexivity.
Qed.
Print Assumptions C102_sums_converted.
(** So they are those of the list when its length is a multiple of the number of events in a block. *)
Theorem C102_sums_converted_partial w nf l pdf F : (0 < w)%nat -> of_size nf l -> (N.of_nat (List.length l) < 4294967296)%N -> (List.length l mod w = 0)%nat ->
  exists s, from_list w nf l = Ok s /\ getVal w s pdf = Ok (loglikelihood pdf l) /\ average w s F = Ok (mean F l).
Proof.
  intros Hw Hsz Hn Hm. destruct l as [| x l0].
  - destruct (from_list_ok w Hw nf [] Hsz) as (s & A & AB). exists s. split; [exact A|].
    rewrite (getVal_ok w Hw _ nf s (conv []) pdf AB), (average_ok w Hw _ nf s (conv []) F AB); try (intros i Hi; exfalso; revert Hi; change (blocks w (@List.length event [])) with 0%nat; lia).
    change (blocks w (@List.length event [])) with 0%nat. rewrite Nat.mul_0_r. split; reflexivity.
  - destruct (exists_last (l := x :: l0) ltac:(discriminate)) as (l & e & E). rewrite E in *.
    destruct (C102_sums_converted w nf l e pdf F Hw Hsz Hn) as (s & pad & A & Hp & Hq & B & C). exists s. split; [exact A|].
    assert (pad = 0%nat).
    { rewrite <- Nat.add_mod_idemp_l, Hm, Nat.add_0_l in Hq by lia. rewrite Nat.mod_small in Hq by exact Hp. exact Hq. }
    subst pad. cbn [repeat] in B, C. rewrite app_nil_r in B, C. auto.
Qed.
Print Assumptions C102_sums_converted_partial.
(** Otherwise the likelihood of a converted list is not that of the list: the lanes behind the last event carry its weight, since a
    default of zero passed to gather means "repeat the last". *)
Theorem C102_sums_refuted : exists w nf l s pdf, (0 < w)%nat /\ of_size nf l /\ from_list w nf l = Ok s /\
  (forall x, 0 < pdf x) /\ getVal w s pdf = Ok (4 * loglikelihood pdf l) /\ loglikelihood pdf l <> 0.
Proof.
  set (e := Event [0] 1 1 0). assert (H : of_size 1 [e]) by (repeat constructor).
  destruct (C102_sums_converted 4 1 [] e (fun _ => exp 1) (fun _ => 0) ltac:(lia) H ltac:(reflexivity)) as (s & pad & A & Hp & Hq & B & _).
  assert (pad = 3%nat) by (cbn [app List.length] in Hq; destruct pad as [| [| [| [| pad]]]]; try discriminate; [reflexivity | lia]). subst pad.
  exists 4%nat, 1%nat, [e], s, (fun _ => exp 1). split; [lia|]. split; [exact H|]. split; [exact A|]. split; [intros _; apply exp_pos|].
  cbn [app] in B. rewrite B. unfold loglikelihood. cbn. rewrite ln_exp. split; [f_equal; lra | lra].
Qed.
Print Assumptions C102_sums_refuted.

(** A list read from several files holds the events of the last one only: each file replaces what was read before. *)
Theorem C102_files_refuted : exists w nf f1 f2 s, (0 < w)%nat /\ of_size nf (f1 ++ f2) /\ load_files w nf [f1; f2] (empty_list w nf) = Ok s /\
  n_entries (data s) = List.length f2 /\ (List.length f2 < List.length (f1 ++ f2))%nat /\ (forall i e, nth_error f2 i = Some e -> at_ w s i = Ok (as_event i e)).
Proof.
  set (e := Event [0] 1 1 0). set (e' := Event [1] 1 1 0). assert (H1 : of_size 1 [e]) by (repeat constructor). assert (H2 : of_size 1 [e']) by (repeat constructor).
  destruct (C102_loading_partial 1 1 [e] (empty_list 1 1) ltac:(lia) H1 ltac:(reflexivity) ltac:(right; cbn; lia)) as (s1 & A1 & _).
  destruct (C102_loading_partial 1 1 [e'] s1 ltac:(lia) H2 ltac:(reflexivity) ltac:(right; cbn; lia)) as (s & A & B & C).
  exists 1%nat, 1%nat, [e], [e'], s. split; [lia|]. split; [repeat constructor|]. split; [| split; [exact B | split; [cbn; lia | exact C]]].
  cbn [load_files]. rewrite A1. cbn [bind]. rewrite A. reflexivity.
Qed.
Print Assumptions C102_files_refuted.

(** Five events in blocks of four. *)
Example five : exists l, of_size 2 l /\ (List.length l mod 4 <> 0)%nat /\ (4 <= List.length l)%nat /\ (N.of_nat (List.length l) < 4294967296)%N /\ exists l' e, l = l' ++ [e].
Proof.
  set (e := fun x => Event [x; 2 * x] 1 2 0). exists [e 1; e 2; e 3; e 4; e 5]. split; [repeat constructor|]. repeat split; cbn; try lia.
  exists [e 1; e 2; e 3; e 4], (e 5). reflexivity.
Qed.
