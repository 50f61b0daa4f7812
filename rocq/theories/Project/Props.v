(** C101: histograms of projections, with their components. *)
From Verif.Common Require Import Prelude.
From Coq Require Import Reals Lra Permutation Sorted.
From Verif.Project Require Import Model Spec Proofs.
Local Open Scope R_scope.

Section Props.
  Context {E : Type} (weight genPdf : E -> R).
  Implicit Types (p : projection E) (args : pack E) (q : E -> bool).
  (** The selected events whose value is in a cell. *)
  Definition selects p args b q : Prop :=
    forall e, q e = true <-> passes E (cut_of E args) e = true /\ cell (nBins p) (pmin p) (pmax p) (func p e) b.
  Definition proper p : Prop := (0 < nBins p)%nat /\ pmin p < pmax p.
  Lemma selects_eq p args b q : proper p -> selects p args b q -> forall events, filter q events = filter (fun e => (passes E (cut_of E args) e && (bin E p e =? b)%nat)%bool) events.
  Proof.
    intros [N M] S events. apply filter_ext. intro e. apply eq_true_iff_eq. rewrite (S e), andb_true_iff, Nat.eqb_eq.
    pose proof (find_cell (nBins p) (pmin p) (pmax p) (func p e) N M) as F. unfold bin. split; intros [A B]; (split; [exact A|]).
    - exact (cell_unique _ _ _ _ _ _ N M F B).
    - now rewrite <- B.
  Qed.
End Props.

Lemma selected {E} (p : projection E) args b : proper p -> selects p args b (fun e => (passes E (cut_of E args) e && (bin E p e =? b)%nat)%bool).
Proof.
  intros [N M] e. rewrite andb_true_iff, Nat.eqb_eq. pose proof (find_cell (nBins p) (pmin p) (pmax p) (func p e) N M) as F. unfold bin.
  split; intros [A B]; (split; [exact A|]); [now rewrite <- B|exact (cell_unique _ _ _ _ _ _ N M F B)].
Qed.
Lemma total_one {A} (x : A) f : total f [x] = f x.
Proof. cbn. lra. Qed.
(** A cell of the histogram has the weights of the selected events in it, times the weight function over the density they were
    generated with, if there is one. *)
Theorem C101_contents : forall (E : Type) (weight genPdf : E -> R) (p : projection E) events args b q, proper p -> selects p args b q ->
  fst (project E weight genPdf p events args) b =
  total (fun e => weight e * match get WeightFunction args with Some (VFcn (Some f)) => f e / genPdf e | _ => 1 end) (filter q events).
Proof.
  intros E weight genPdf p events args b q P S. unfold project. cbn [fst]. rewrite (fold_fill E p (cut_of E args) _ b), (selects_eq p args b q P S). unfold empty.
  rewrite Rplus_0_l. apply total_ext. intros e _. unfold getArg. destruct (get WeightFunction args) as [[| | | | |[f|]]|]; reflexivity.
Qed.
Print Assumptions C101_contents.

(** The components: for each function one histogram, in some order. All are scaled by the same number, with which the contents
    of all bins of all histograms add up to Norm (unless this is -1 or they add up to zero). *)
Theorem C101_components : forall (E : Type) (weight genPdf : E -> R) (p : projection E) events fs args, proper p ->
  exists hs c written, project_each E weight genPdf p events fs args = Ok (hs, written) /\
    (exists hs' prefix, Permutation hs hs' /\ Forall2 (fun (f : str * (E -> R)) (h : str * (nat -> R)) => fst h = prefix ++ fst f ++ S_ "_" ++ pname p /\ forall b q, selects p args b q ->
       snd h b = c * total (fun e => weight e * snd f e / genPdf e) (filter q events)) fs hs') /\
    (forall b q, selects p args b q ->
       total (fun h => snd h b) hs = c * total (fun e => weight e * total (fun f => snd f e) fs / genPdf e) (filter q events)) /\
    forall r D, getArg Norm (VReal 1) args = VReal r ->
      (forall b q, selects p args b q -> D b = total (fun e => weight e * total (fun f => snd f e) fs / genPdf e) (filter q events)) ->
      (r = -1 \/ total D (seq 1 (nBins p)) = 0 -> c = 1) /\
      (r <> -1 -> total D (seq 1 (nBins p)) <> 0 -> c = r / total D (seq 1 (nBins p)) /\ total (fun b => total (fun h => snd h b) hs) (seq 1 (nBins p)) = r).
Proof.
  intros E weight genPdf p events fs args P. unfold project_each.
  cbv zeta. match goal with |- context [map (fun f => (?P ++ fst f ++ _, empty)) fs] => set (pre := P) end.
  set (r := match getArg Norm (VReal 1) args with VReal r => r | _ => 0 end).
  destruct (fill_events_ok E weight genPdf p (cut_of E args) fs events (map (fun f => (pre ++ fst f ++ S_ "_" ++ pname p, empty)) fs)) as (h0 & H0 & F0); [now rewrite map_length|].
  rewrite H0. cbn [bind]. rewrite fold_total, Rplus_0_l.
  set (t := total (fun h => Integral (nBins p) (snd h)) (sort (nBins p) h0)).
  assert (C0 : Forall2 (fun (f : str * (E -> R)) (h : str * (nat -> R)) => fst h = pre ++ fst f ++ S_ "_" ++ pname p /\ forall b, snd h b = content E weight genPdf p (cut_of E args) (snd f) b events) fs h0).
  { clear - F0. revert h0 F0. induction fs as [|f fs IH]; intros h0 F0; cbn [map combine] in F0; inversion F0 as [|? ? ? ? A B]; subst; constructor.
    - destruct A as [N A]. split; [exact N|]. intro b. rewrite A. cbn [fst snd]. unfold empty. lra.
    - now apply IH. }
  assert (G : forall c, let hs' := map (fun h => (fst h, Scale c (snd h))) h0 in Forall2 (fun (f : str * (E -> R)) (h : str * (nat -> R)) => fst h = pre ++ fst f ++ S_ "_" ++ pname p /\ forall b q, selects p args b q ->
       snd h b = c * total (fun e => weight e * snd f e / genPdf e) (filter q events)) fs hs').
  { intros c. cbv zeta. clear - C0 P. induction C0 as [|f h fs h0 [N A] _ IH]; cbn [map]; constructor; [|exact IH]. split; [exact N|].
    intros b q S. cbn [snd]. unfold Scale. rewrite A. unfold content. now rewrite (selects_eq p args b q P S). }
  assert (T : forall c b q, selects p args b q -> forall hs', Forall2 (fun (f : str * (E -> R)) (h : str * (nat -> R)) => fst h = pre ++ fst f ++ S_ "_" ++ pname p /\ forall b q, selects p args b q ->
       snd h b = c * total (fun e => weight e * snd f e / genPdf e) (filter q events)) fs hs' ->
     total (fun h => snd h b) hs' = c * total (fun e => weight e * total (fun f => snd f e) fs / genPdf e) (filter q events)).
  { intros c b q S hs' F. transitivity (total (fun f => c * total (fun e => weight e * snd f e / genPdf e) (filter q events)) fs).
    - clear - S F. induction F as [|f h fs' hs' [_ A] _ IH]; [reflexivity|]. cbn [total]. rewrite (A b q S), IH. reflexivity.
    - rewrite total_scale. f_equal. rewrite total_swap. apply total_ext. intros e _.
      rewrite (total_ext _ (fun f => weight e / genPdf e * snd f e)) by (intros; unfold Rdiv; ring). rewrite total_scale. unfold Rdiv. ring. }
  assert (One : Forall2 (fun (f : str * (E -> R)) (h : str * (nat -> R)) => fst h = pre ++ fst f ++ S_ "_" ++ pname p /\ forall b q, selects p args b q -> snd h b = 1 * total (fun e => weight e * snd f e / genPdf e) (filter q events)) fs h0).
  { clear - C0 P. induction C0 as [|f h fs h0 [N A] _ IH]; constructor; [|exact IH]. split; [exact N|]. intros b q S. rewrite A. unfold content. rewrite (selects_eq p args b q P S). lra. }
  assert (Pm : Permutation (sort (nBins p) h0) h0) by apply sort_perm.
  assert (TD : forall D, (forall b q, selects p args b q -> D b = total (fun e => weight e * total (fun f => snd f e) fs / genPdf e) (filter q events)) ->
     t = total D (seq 1 (nBins p))).
  { intros D HD. unfold t. rewrite (total_perm _ _ _ Pm). unfold Integral. rewrite total_upto, upto_total. apply total_ext. intros b _.
    pose proof (selected p args b P) as S. rewrite (T 1 b _ S h0 One), (HD b _ S). lra. }
  destruct (Req_EM_T r (-1)) as [R1|R1]; [|destruct (Req_EM_T t 0) as [T0|T0]].
  - do 2 eexists. eexists. split; [reflexivity|]. split; [exists h0, pre; split; [exact Pm|exact One]|]. split.
    + intros b q S. rewrite (total_perm _ _ _ Pm). now apply T.
    + intros r' D Hr HD. split; [reflexivity|]. intros Ne. exfalso. apply Ne. rewrite <- R1. unfold r. now rewrite Hr.
  - do 2 eexists. eexists. split; [reflexivity|]. split; [exists h0, pre; split; [exact Pm|exact One]|]. split.
    + intros b q S. rewrite (total_perm _ _ _ Pm). now apply T.
    + intros r' D Hr HD. split; [reflexivity|]. intros _ X. exfalso. apply X. now rewrite <- (TD D HD).
  - exists (map (fun h => (fst h, Scale (r / t) (snd h))) (sort (nBins p) h0)), (r / t). eexists. split; [reflexivity|].
    assert (Pm' := Permutation_map (fun h : str * hist => (fst h, Scale (r / t) (snd h))) Pm). split; [eexists; exists pre; split; [exact Pm'|exact (G (r / t))]|]. split.
    + intros b q S. rewrite (total_perm _ _ _ Pm'). apply T; [exact S|apply G].
    + intros r' D Hr HD. replace r' with r by (unfold r; now rewrite Hr). rewrite <- (TD D HD). split; [intros [X|X]; contradiction|]. intros _ _. split; [reflexivity|].
      rewrite (total_ext _ (fun b => r / t * D b)).
      * rewrite total_scale, <- (TD D HD). field. exact T0.
      * intros b _. pose proof (selected p args b P) as S. rewrite (total_perm _ _ _ Pm'), (HD b _ S). apply T; [exact S|apply G].
Qed.
Print Assumptions C101_components.

Lemma insert_sorted n x l : Sorted.StronglySorted (fun h h' : str * hist => Integral n (snd h) <= Integral n (snd h')) l -> Sorted.StronglySorted (fun h h' => Integral n (snd h) <= Integral n (snd h')) (insert n x l).
Proof.
  induction 1 as [|y l S IH F]; cbn [insert]; [repeat constructor|]. destruct (Rlt_dec _ _) as [L|L].
  - constructor; [exact IH|]. eapply Permutation_Forall; [apply Permutation_sym, insert_perm|]. constructor; [lra|exact F].
  - constructor; [constructor; assumption|]. constructor; [lra|]. eapply Forall_impl; [|exact F]. intros z Hz. cbn in Hz |- *. lra.
Qed.
Lemma sort_sorted n l : Sorted.StronglySorted (fun h h' : str * hist => Integral n (snd h) <= Integral n (snd h')) (sort n l).
Proof. induction l as [|x l IH]; cbn [sort fold_right]; [constructor|]. apply insert_sorted. exact IH. Qed.
(** The histograms are in the order of their contents, the smallest first, which is the one at the bottom of the stack. *)
Theorem C101_sorted : forall (E : Type) (weight genPdf : E -> R) (p : projection E) events fs args hs w r D, proper p ->
  project_each E weight genPdf p events fs args = Ok (hs, w) -> getArg Norm (VReal 1) args = VReal r ->
  (forall b q, selects p args b q -> D b = total (fun e => weight e * total (fun f => snd f e) fs / genPdf e) (filter q events)) ->
  r = -1 \/ 0 <= r -> 0 <= total D (seq 1 (nBins p)) ->
  Sorted.StronglySorted (fun h h' => total (snd h) (seq 1 (nBins p)) <= total (snd h') (seq 1 (nBins p))) hs.
Proof.
  intros E weight genPdf p events fs args hs w r D P H Hr HD R0 D0.
  destruct (C101_components E weight genPdf p events fs ((Norm, VReal (-1)) :: args) P) as (h1 & c & w1 & H1 & _ & T & I).
  destruct (I (-1) D eq_refl HD) as [C1 _]. specialize (C1 (or_introl eq_refl)). subst c. clear I.
  assert (SS : forall c h0, 0 <= c -> Sorted.StronglySorted (fun h h' => total (snd h) (seq 1 (nBins p)) <= total (snd h') (seq 1 (nBins p))) (map (fun h : str * hist => (fst h, Scale c (snd h))) (sort (nBins p) h0))).
  { intros c h0 C0. pose proof (sort_sorted (nBins p) h0) as S. induction S as [|x l S IH F]; cbn [map]; constructor; [exact IH|]. apply Forall_map. eapply Forall_impl; [|exact F].
    intros y L. cbn [snd]. unfold Scale. rewrite !total_scale. unfold Integral in L. rewrite !upto_total in L. now apply Rmult_le_compat_l. }
  assert (S1 : forall h0, Sorted.StronglySorted (fun h h' => total (snd h) (seq 1 (nBins p)) <= total (snd h') (seq 1 (nBins p))) (sort (nBins p) h0)).
  { intros h0. pose proof (sort_sorted (nBins p) h0) as S. induction S as [|x l S IH F]; constructor; [exact IH|]. eapply Forall_impl; [|exact F].
    intros y L. unfold Integral in L. rewrite !upto_total in L. exact L. }
  unfold project_each in H, H1. cbv zeta in H, H1. cbn [getArg get tag_eqb] in H1. unfold getArg at 1 in H1. cbn [get tag_eqb] in H1. rewrite Hr in H.
  change (cut_of E ((Norm, VReal (-1)) :: args)) with (cut_of E args) in H1. change (getArg Prefix (VStr []) ((Norm, VReal (-1)) :: args)) with (getArg Prefix (VStr []) args) in H1.
  set (filled := fill_events _ _ _ _ _ _ _ _) in H, H1. destruct filled as [h0| | |]; try discriminate H. cbn [bind] in H, H1.
  destruct (Req_EM_T (-1) (-1)) as [_|N]; [|contradiction]. injection H1 as <- _.
  destruct (Req_EM_T r (-1)) as [R1|R1]; [injection H as <- _; apply S1|]. rewrite fold_total, Rplus_0_l in H.
  set (t := total _ (sort (nBins p) h0)) in H. assert (Et : t = total D (seq 1 (nBins p))).
  { unfold t, Integral. rewrite total_upto, upto_total. apply total_ext. intros b _. pose proof (selected p args b P) as S. rewrite (T b _ S), (HD b _ S). lra. }
  destruct (Req_EM_T t 0) as [T0|T0]; injection H as <- _; [apply S1|]. apply SS. apply Rmult_le_pos; [lra|]. left. apply Rinv_0_lt_compat. lra.
Qed.
Print Assumptions C101_sorted.

Example C101_sorted_ex : let p := Projection (fun x : R => x) (S_ "x") 1 0 1 in let fs := [(S_ "a", fun _ : R => 3); (S_ "b", fun _ => 2)] in
  exists hs w, project_each R (fun _ => 1) (fun _ => 1) p [1 / 2; 1 / 3] fs [] = Ok (hs, w) /\ Sorted.StronglySorted (fun h h' => total (snd h) (seq 1 1) <= total (snd h') (seq 1 1)) hs.
Proof.
  cbv zeta. set (p := Projection (fun x : R => x) (S_ "x") 1 0 1). set (fs := [(S_ "a", fun _ : R => 3); (S_ "b", fun _ => 2)]). assert (P : proper p) by (split; cbn; [lia|lra]).
  destruct (C101_components R (fun _ => 1) (fun _ => 1) p [1 / 2; 1 / 3] fs [] P) as (hs & _ & w & H & _). exists hs, w. split; [exact H|].
  set (D := fun b => total (fun e : R => 1 * total (fun f => snd f e) fs / 1) (filter (fun e => (passes R (cut_of R []) e && (bin R p e =? b)%nat)%bool) [1 / 2; 1 / 3])).
  apply (C101_sorted R (fun _ => 1) (fun _ => 1) p [1 / 2; 1 / 3] fs [] hs w 1 D P H eq_refl); [|lra|].
  - intros b q S. unfold D. now rewrite (selects_eq p [] b q P S).
  - assert (N : forall l, 0 <= total (fun e : R => 1 * total (fun f => snd f e) fs / 1) l) by (induction l as [|x l IH]; cbn in *; lra).
    cbn [nBins p seq total]. unfold D. pose proof (N (filter (fun e => (passes R (cut_of R []) e && (bin R p e =? 1)%nat)%bool) [1 / 2; 1 / 3])). lra.
Qed.
(** The stack of components that add up to a density, whatever the factor, is the histogram of the density. *)
Theorem C101_stack : forall (E : Type) (weight genPdf : E -> R) (p : projection E) events fs key F k args hs hs1 w w1 r D, proper p ->
  k <> 0 -> (forall e, In e events -> F e = k * total (fun f => snd f e) fs) ->
  project_each E weight genPdf p events fs args = Ok (hs, w) -> project_each E weight genPdf p events [(key, F)] args = Ok (hs1, w1) ->
  getArg Norm (VReal 1) args = VReal r -> r <> -1 ->
  (forall b q, selects p args b q -> D b = total (fun e => weight e * F e / genPdf e) (filter q events)) -> total D (seq 1 (nBins p)) <> 0 ->
  forall b, total (fun h => snd h b) hs = total (fun h => snd h b) hs1.
Proof.
  intros E weight genPdf p events fs key F k args hs hs1 w w1 r D P K HF H H1 Hr R0 HD N1 b.
  destruct (C101_components E weight genPdf p events fs args P) as (hs' & c & w' & H' & _ & T & I). rewrite H in H'. injection H' as <- _.
  destruct (C101_components E weight genPdf p events [(key, F)] args P) as (hs1' & c1 & w1' & H1' & _ & T1 & I1). rewrite H1 in H1'. injection H1' as <- _.
  assert (D1 : forall b q, selects p args b q -> D b = total (fun e => weight e * total (fun f => snd f e) [(key, F)] / genPdf e) (filter q events)).
  { intros b0 q S. rewrite (HD b0 q S). apply total_ext. intros e _. cbn [total snd]. unfold Rdiv. ring. }
  assert (D0 : forall b q, selects p args b q -> / k * D b = total (fun e => weight e * total (fun f => snd f e) fs / genPdf e) (filter q events)).
  { intros b0 q S. rewrite (HD b0 q S), <- total_scale. apply total_ext. intros e He. apply filter_In in He as [He _]. rewrite (HF e He). unfold Rdiv.
    set (X := total _ fs). replace (/ k * (weight e * (k * X) * / genPdf e)) with (/ k * k * (weight e * X * / genPdf e)) by ring. rewrite Rinv_l by exact K. ring. }
  destruct (I r (fun b => / k * D b) Hr D0) as [_ I']. destruct (I1 r D Hr D1) as [_ I1']. rewrite total_scale in I'.
  destruct (I1' R0 N1) as [-> _]. assert (N0 : / k * total D (seq 1 (nBins p)) <> 0) by (apply Rmult_integral_contrapositive; split; [now apply Rinv_neq_0_compat|exact N1]).
  destruct (I' R0 N0) as [-> _]. pose proof (selected p args b P) as S. rewrite (T b _ S), (T1 b _ S), <- (D0 b _ S), <- (D1 b _ S). field. split; assumption.
Qed.
Print Assumptions C101_stack.

(** The arguments may be given in any order, each once. *)
Theorem C101_order : forall (E : Type) (weight genPdf : E -> R) (p : projection E) events fs args args', NoDup (map fst args) -> Permutation args args' ->
  project E weight genPdf p events args = project E weight genPdf p events args' /\
  project_each E weight genPdf p events fs args = project_each E weight genPdf p events fs args'.
Proof.
  intros E weight genPdf p events fs args args' ND Pm.
  assert (T : forall a b, tag_eqb a b = true <-> a = b) by (intros [] []; cbn; split; congruence).
  assert (G : forall t, get t args = get t args').
  { intro t. assert (X : forall l : pack E, NoDup (map fst l) -> forall v, get t l = Some v <-> In (t, v) l).
    { induction l as [|[t' v'] l IH]; intros N v; cbn [get In]; [split; [discriminate|intros []]|]. inversion N as [|? ? N1 N2]; subst.
      destruct (tag_eqb t t') eqn:Q.
      - apply T in Q. subst t'. split; [intro Y; injection Y as <-; now left|]. intros [Y|Y]; [now injection Y as <-|].
        exfalso. apply N1. apply in_map_iff. exists (t, v). now split.
      - rewrite (IH N2 v). split; [now right|]. intros [Y|Y]; [|exact Y]. injection Y as <- <-. assert (tag_eqb t' t' = true) by now apply T. congruence. }
    assert (ND' : NoDup (map fst args')) by (apply (Permutation_NoDup (Permutation_map fst Pm)), ND).
    destruct (get t args) as [v|] eqn:Q.
    - symmetry. apply (X args' ND'). apply (Permutation_in _ Pm). now apply X.
    - destruct (get t args') as [v|] eqn:Q'; [|reflexivity]. apply (X args' ND') in Q'. apply (Permutation_in _ (Permutation_sym Pm)) in Q'.
      apply (X args ND) in Q'. congruence. }
  unfold project, project_each, cut_of, getArg. now rewrite !G.
Qed.
Print Assumptions C101_order.

(** binFunctor counts the bins from zero, in the range of the histogram. *)
Theorem C101_binFunctor_partial : forall (E : Type) (p : projection E) e b, proper p -> pmin p <= func p e < pmax p ->
  cell (nBins p) (pmin p) (pmax p) (func p e) b -> binFunctor E p e = (Z.of_nat b - 1)%Z.
Proof.
  intros E p e b [N M] R C. destruct C as [C|C|b Hb C]; [lra|lra|]. apply in_bin_scaled in C; [|assumption..].
  unfold binFunctor, trunc. pose proof (lt_INR _ _ N) as N'. change (INR 0) with 0 in N'.
  replace ((func p e - pmin p) / ((pmax p - pmin p) / INR (nBins p))) with (INR (nBins p) * (func p e - pmin p) / (pmax p - pmin p)) by (field; lra).
  set (u := INR (nBins p) * (func p e - pmin p) / (pmax p - pmin p)) in *. destruct Hb as [B1 _]. apply le_INR in B1. change (INR 1) with 1 in B1.
  destruct (Rle_dec 0 u) as [U|U]; [|lra]. apply int_part_unique. rewrite minus_IZR, <- INR_IZR_INZ. lra.
Qed.
Print Assumptions C101_binFunctor_partial.
(** A value up to one bin below the range is in bin 0 of binFunctor, where the histogram has none of it. *)
Theorem C101_binFunctor_refuted : exists (p : projection R) e, proper p /\ func p e < pmin p /\ binFunctor R p e = 0%Z /\ bin R p e = 0%nat.
Proof.
  exists (Projection (fun x => x) (S_ "x") 1 0 1), (-1/2). split; [split; cbn; [lia|lra]|]. split; [cbn; lra|]. split.
  - unfold binFunctor, trunc. cbn [func pmin pmax nBins]. change (INR 1) with 1. destruct (Rle_dec 0 _) as [H|H]; [lra|].
    rewrite (int_part_unique 0); [reflexivity|]. lra.
  - unfold bin, findBin. cbn. destruct (Rlt_dec (-1 / 2) 0); [reflexivity|lra].
Qed.
Print Assumptions C101_binFunctor_refuted.
(** AutoWrite(false) writes the histogram as AutoWrite(true) does. *)
Theorem C101_autowrite_refuted : exists (args : pack R), get AutoWrite args = Some (VBool false) /\
  forall weight genPdf p events, snd (project R weight genPdf p events args) = true.
Proof. exists [(AutoWrite, VBool false)]. split; reflexivity. Qed.
Print Assumptions C101_autowrite_refuted.
(** Norm is the number of events in the range, not of all events: for the events themselves, with a density equal to that they
    were generated with and Norm the number of events, the stack is not the histogram of the events if some are outside the range. *)
Theorem C101_range_refuted : exists (p : projection R) events args hs w b, proper p /\ getArg Norm (VReal 1) args = VReal (INR (List.length events)) /\
  project_each R (fun _ => 1) (fun _ => 1) p events [(S_ "pdf", fun _ => 1)] args = Ok (hs, w) /\
  (1 <= b <= nBins p)%nat /\ fst (project R (fun _ => 1) (fun _ => 1) p events []) b = 1 /\ total (fun h => snd h b) hs = 2.
Proof.
  set (p := Projection (fun x : R => x) (S_ "x") 1 0 1). assert (P : proper p) by (split; cbn; [lia|lra]).
  pose (args := [(Norm, VReal (INR 2))] : pack R). pose (evs := [1/2; 5]).
  assert (S : selects p args 1 (fun x => if Rlt_dec x 1 then if Rle_dec 0 x then true else false else false)).
  { intro x. cbn [p func nBins pmin pmax]. split.
    - destruct (Rlt_dec x 1); [|discriminate]. destruct (Rle_dec 0 x); [|discriminate]. intros _. split; [reflexivity|]. apply inside; [lia|]. split; cbn; lra.
    - intros [_ C]. inversion C as [C'|C'|b' Hb [A B]]; subst. cbn in A, B. destruct (Rlt_dec x 1); [|lra]. destruct (Rle_dec 0 x); [reflexivity|lra]. }
  assert (Fl : filter (fun x => if Rlt_dec x 1 then if Rle_dec 0 x then true else false else false) evs = [1/2]).
  { cbn [filter evs]. destruct (Rlt_dec (1/2) 1); [|lra]. destruct (Rle_dec 0 (1/2)); [|lra]. destruct (Rlt_dec 5 1); [lra|reflexivity]. }
  destruct (C101_components R (fun _ => 1) (fun _ => 1) p evs [(S_ "pdf", fun _ => 1)] args P) as (hs & c & w & H & _ & T & I).
  exists p, evs, args, hs, w, 1%nat. split; [exact P|]. split; [reflexivity|]. split; [exact H|]. split; [cbn; lia|]. split.
  - assert (S0 : selects p [] 1 (fun x => if Rlt_dec x 1 then if Rle_dec 0 x then true else false else false)) by exact S.
    rewrite (C101_contents R _ _ p evs [] 1 _ P S0), Fl. cbn. lra.
  - pose (D := fun b => total (fun e : R => 1 * total (fun f => snd f e) [(S_ "pdf", fun _ => 1)] / 1) (filter (fun e => (passes R (cut_of R args) e && (bin R p e =? b)%nat)%bool) evs)).
    assert (HD : forall b q, selects p args b q -> D b = total (fun e : R => 1 * total (fun f => snd f e) [(S_ "pdf", fun _ => 1)] / 1) (filter q evs)).
    { intros b q Sq. unfold D. now rewrite (selects_eq p args b q P Sq). }
    destruct (I (INR 2) D eq_refl HD) as [_ I']. cbn [nBins p seq] in I'. rewrite !(total_one 1%nat) in I'. rewrite (HD 1%nat _ S), Fl in I'. cbn [total snd] in I'.
    destruct I' as [_ X]; [cbn; lra|lra|]. rewrite X. cbn. lra.
Qed.
Print Assumptions C101_range_refuted.

(** The hypotheses hold for two bins, a selection and two components. *)
Example projection_meets : let p := Projection (fun x : R => x) (S_ "x") 2 0 4 in
  let args := [(Norm, VReal 6); (Selection, VCut (Some (fun x => if Rlt_dec x 3 then true else false)))] in
  proper p /\ NoDup (map fst args) /\
  exists hs w, project_each R (fun _ => 1) (fun _ => 1) p [1; 5/2; 7/2] [(S_ "a", fun x => x); (S_ "b", fun _ => -1/4)] args = Ok (hs, w) /\
    total (fun h => snd h 1%nat) hs = 3/2 /\ total (fun h => snd h 2%nat) hs = 9/2.
Proof.
  intros p args. assert (P : proper p) by (split; cbn; [lia|lra]). split; [exact P|]. split.
  { repeat constructor; cbn; intuition discriminate. }
  destruct (C101_components R (fun _ => 1) (fun _ => 1) p [1; 5/2; 7/2] [(S_ "a", fun x => x); (S_ "b", fun _ => -1/4)] args P) as (hs & c & w & H & _ & T & I).
  exists hs, w. split; [exact H|].
  assert (S1 : selects p args 1 (fun x => if Rlt_dec x 2 then if Rle_dec 0 x then true else false else false)).
  { intro x. cbn [p func nBins pmin pmax args cut_of getArg get tag_eqb passes]. split.
    - destruct (Rlt_dec x 2); [|discriminate]. destruct (Rle_dec 0 x); [|discriminate]. intros _. split; [destruct (Rlt_dec x 3); [reflexivity|lra]|]. apply inside; [lia|]. split; cbn; lra.
    - intros [_ C]. inversion C as [C'|C'|b' Hb [A B]]; subst. cbn in A, B. destruct (Rlt_dec x 2); [|lra]. destruct (Rle_dec 0 x); [reflexivity|lra]. }
  assert (S2 : selects p args 2 (fun x => if Rlt_dec x 3 then if Rle_dec 2 x then true else false else false)).
  { intro x. cbn [p func nBins pmin pmax args cut_of getArg get tag_eqb passes]. split.
    - destruct (Rlt_dec x 3); [|discriminate]. destruct (Rle_dec 2 x); [|discriminate]. intros _. split; [reflexivity|]. apply inside; [lia|]. split; cbn; lra.
    - intros [C0 C]. destruct (Rlt_dec x 3); [|discriminate C0]. inversion C as [C'|C'|b' Hb [A B]]; subst. cbn in A, B. destruct (Rle_dec 2 x); [reflexivity|lra]. }
  pose proof (T 1%nat _ S1) as T1. pose proof (T 2%nat _ S2) as T2.
  cbn [filter] in T1, T2. destruct (Rlt_dec 1 2) in T1; [|lra]. destruct (Rle_dec 0 1) in T1; [|lra]. destruct (Rlt_dec (5/2) 2) in T1; [lra|]. destruct (Rlt_dec (7/2) 2) in T1; [lra|].
  destruct (Rlt_dec 1 3) in T2; [|lra]. destruct (Rle_dec 2 1) in T2; [lra|]. destruct (Rlt_dec (5/2) 3) in T2; [|lra]. destruct (Rle_dec 2 (5/2)) in T2; [|lra]. destruct (Rlt_dec (7/2) 3) in T2; [lra|].
  cbn [total snd] in T1, T2.
  pose (D := fun b => total (fun e : R => 1 * total (fun f => snd f e) [(S_ "a", fun x => x); (S_ "b", fun _ => -1/4)] / 1) (filter (fun e => (passes R (cut_of R args) e && (bin R p e =? b)%nat)%bool) [1; 5/2; 7/2])).
  assert (HD : forall b q, selects p args b q -> D b = total (fun e : R => 1 * total (fun f => snd f e) [(S_ "a", fun x => x); (S_ "b", fun _ => -1/4)] / 1) (filter q [1; 5/2; 7/2])).
  { intros b q Sq. unfold D. now rewrite (selects_eq p args b q P Sq). }
  assert (V1 : D 1%nat = 3/4).
  { rewrite (HD 1%nat _ S1). cbn [filter]. destruct (Rlt_dec 1 2); [|lra]. destruct (Rle_dec 0 1); [|lra]. destruct (Rlt_dec (5/2) 2); [lra|]. destruct (Rlt_dec (7/2) 2); [lra|]. cbn [total snd]. lra. }
  assert (V2 : D 2%nat = 9/4).
  { rewrite (HD 2%nat _ S2). cbn [filter]. destruct (Rlt_dec 1 3); [|lra]. destruct (Rle_dec 2 1); [lra|]. destruct (Rlt_dec (5/2) 3); [|lra]. destruct (Rle_dec 2 (5/2)); [|lra]. destruct (Rlt_dec (7/2) 3); [lra|]. cbn [total snd]. lra. }
  destruct (I 6 D eq_refl HD) as [_ I']. cbn [nBins p seq total] in I'. rewrite V1, V2 in I'. destruct I' as [C _]; [lra|lra|]. rewrite T1, T2, C. split; lra.
Qed.
