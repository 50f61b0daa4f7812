(** C90: the chi2 of a binned comparison. *)
From Coq Require Import Reals List Lia Lra Permutation.
From Verif.Common Require Import Prelude.
From Verif.Chi2 Require Import Model Spec Proofs.
Import ListNotations.
Local Open Scope R_scope.

(** The value: in every bin the square of the difference over its variance, the prediction normalised to the data. *)
Theorem C90_value : forall event (bin : event -> nat) weight genPdf size data mc fcn, usable bin genPdf size data mc -> sumR mc (predicted weight genPdf fcn) <> 0 ->
  (forall b, (b < size)%nat -> variance bin weight genPdf data mc fcn b <> 0) ->
  doChi2 bin weight genPdf size data mc fcn =
    Ok (sumR (seq 0 size) (fun b => difference bin weight genPdf data mc fcn b ^ 2 / variance bin weight genPdf data mc fcn b), size) /\
  sumR (seq 0 size) (fun b => scale_to weight genPdf data mc fcn * content bin mc (predicted weight genPdf fcn) b) = sumR data weight.
Proof.
  intros event bin weight genPdf size data mc fcn U T V. rewrite chi2_form by exact U. destruct (Req_EM_T _ 0); [contradiction|].
  rewrite (terms_value _ (fun b => difference bin weight genPdf data mc fcn b ^ 2 / variance bin weight genPdf data mc fcn b)).
  - cbn [bind]. split; [do 2 f_equal; ring|]. rewrite sumR_scal, content_total by (intros e I; apply U; apply in_or_app; now right). unfold scale_to. field. exact T.
  - intros b I. apply in_seq in I. unfold term, rdiv. destruct (Req_EM_T _ 0) as [E|]; [|reflexivity]. destruct (V b); [lia|exact E].
Qed.
Print Assumptions C90_value.
(** Two bins; an event is its bin, with weight one. *)
Example C90_value_example : let one := fun _ : nat => 1 in usable (fun e => e) one 2 [0; 0; 1]%nat [0; 1; 1]%nat /\ sumR [0; 1; 1]%nat (predicted one one one) <> 0 /\
  (forall b, (b < 2)%nat -> variance (fun e => e) one one [0; 0; 1]%nat [0; 1; 1]%nat one b <> 0) /\
  difference (fun e => e) one one [0; 0; 1]%nat [0; 1; 1]%nat one 0 = 1.
Proof.
  cbv zeta. split; [|split; [|split]].
  - split; [lia|]. split; [intros e I; cbn in I; lia|intros; lra].
  - cbn. unfold predicted. lra.
  - intros [|[|b]] H; [| |lia]; unfold variance, scale_to, predicted, content; cbn; intro E; field_simplify in E; lra.
  - unfold difference, scale_to, predicted, content; cbn. field.
Qed.

(** It is not negative, and it is zero only where the prediction is the data in every bin. *)
Theorem C90_zero : forall event (bin : event -> nat) weight genPdf size data mc fcn chi2 n, usable bin genPdf size data mc ->
  doChi2 bin weight genPdf size data mc fcn = Ok (chi2, n) -> n = size /\ 0 <= chi2 /\ (chi2 = 0 <-> forall b, (b < size)%nat -> difference bin weight genPdf data mc fcn b = 0).
Proof.
  intros event bin weight genPdf size data mc fcn chi2 n U E.
  assert (T : sumR mc (predicted weight genPdf fcn) <> 0) by (intro T; rewrite chi2_form in E by exact U; destruct (Req_EM_T _ 0); [discriminate|contradiction]).
  assert (V : forall b, (b < size)%nat -> variance bin weight genPdf data mc fcn b <> 0).
  { intros b Hb Z. rewrite chi2_form in E by exact U. destruct (Req_EM_T _ 0); [contradiction|]. rewrite terms_throw in E; [discriminate| |].
    - intro b'. unfold term, rdiv. destruct (Req_EM_T _ 0); [now left|right; eexists; reflexivity].
    - exists b. split; [apply in_seq; lia|]. unfold term, rdiv. destruct (Req_EM_T _ 0); [reflexivity|contradiction]. }
  destruct (C90_value event bin weight genPdf size data mc fcn U T V) as [E' _]. rewrite E' in E. injection E as <- <-. split; [reflexivity|].
  assert (P : forall b, In b (seq 0 size) -> 0 <= difference bin weight genPdf data mc fcn b ^ 2 / variance bin weight genPdf data mc fcn b).
  { intros b I. apply in_seq in I. apply Rmult_le_pos; [apply pow2_ge_0|]. apply Rlt_le, Rinv_0_lt_compat. pose proof (variance_nonneg bin weight genPdf data mc fcn b). specialize (V b ltac:(lia)). lra. }
  split; [now apply sumR_nonneg|]. split.
  - intros Z b Hb. pose proof (sumR_zero _ _ P Z b ltac:(apply in_seq; lia)) as Q. cbv beta in Q. specialize (V b Hb). apply Rmult_integral in Q. destruct Q as [Q|Q]; [|now apply Rinv_neq_0_compat in V].
    assert (difference bin weight genPdf data mc fcn b * difference bin weight genPdf data mc fcn b = 0) by lra. nra.
  - intro Z. rewrite (sumR_ext _ _ (fun _ => 0 * 0)); [rewrite sumR_scal; ring|]. intros b I. apply in_seq in I. rewrite Z by lia. unfold Rdiv. ring.
Qed.
Print Assumptions C90_zero.

(** The order of the events does not matter. *)
Theorem C90_order : forall event (bin : event -> nat) weight genPdf size data data' mc mc' fcn, usable bin genPdf size data mc -> Permutation data data' -> Permutation mc mc' ->
  doChi2 bin weight genPdf size data mc fcn = doChi2 bin weight genPdf size data' mc' fcn.
Proof.
  intros event bin weight genPdf size data data' mc mc' fcn U P P'.
  assert (U' : usable bin genPdf size data' mc').
  { destruct U as (A & B & C). split; [exact A|]. split; [intros e I; apply B|intros e I; apply C].
    - apply in_app_or in I. apply in_or_app. destruct I as [I|I]; [left|right]; (eapply Permutation_in; [apply Permutation_sym|]; eassumption).
    - eapply Permutation_in; [apply Permutation_sym|]; eassumption. }
  rewrite !chi2_form by assumption. rewrite (sumR_perm mc mc' _ P'). destruct (Req_EM_T _ 0); [reflexivity|]. f_equal. apply terms_ext. intros b _.
  unfold term, difference, variance, scale_to, content. rewrite (sumR_perm data data' weight P), (sumR_perm mc mc' _ P').
  rewrite !(fun v => sumR_perm _ _ v (filter_perm (fun e => Nat.eqb (bin e) b) _ _ P)), !(fun v => sumR_perm _ _ v (filter_perm (fun e => Nat.eqb (bin e) b) _ _ P')). reflexivity.
Qed.
Print Assumptions C90_order.

(** Neither the normalisation of the model nor a common factor of the weights of the data matters. *)
Theorem C90_scale : forall event (bin : event -> nat) weight genPdf size data mc fcn c, usable bin genPdf size data mc -> c <> 0 ->
  doChi2 bin weight genPdf size data mc (fun e => c * fcn e) = doChi2 bin weight genPdf size data mc fcn /\
  doChi2 bin (fun e => c * weight e) genPdf size data mc fcn = doChi2 bin weight genPdf size data mc fcn.
Proof.
  intros event bin weight genPdf size data mc fcn c U C. assert (C2 : c ^ 2 <> 0) by (apply pow_nonzero; exact C).
  assert (P1 : forall l : list event, sumR l (predicted weight genPdf (fun e => c * fcn e)) = c * sumR l (predicted weight genPdf fcn)) by (intro l; rewrite <- sumR_scal; apply sumR_ext; intros; unfold predicted, Rdiv; ring).
  assert (P2 : forall l : list event, sumR l (predicted (fun e => c * weight e) genPdf fcn) = c * sumR l (predicted weight genPdf fcn)) by (intro l; rewrite <- sumR_scal; apply sumR_ext; intros; unfold predicted, Rdiv; ring).
  assert (Q1 : forall l : list event, sumR l (fun e => predicted weight genPdf (fun e => c * fcn e) e ^ 2) = c ^ 2 * sumR l (fun e => predicted weight genPdf fcn e ^ 2)) by (intro l; rewrite <- sumR_scal; apply sumR_ext; intros; unfold predicted, Rdiv; ring).
  assert (Q2 : forall l : list event, sumR l (fun e => predicted (fun e => c * weight e) genPdf fcn e ^ 2) = c ^ 2 * sumR l (fun e => predicted weight genPdf fcn e ^ 2)) by (intro l; rewrite <- sumR_scal; apply sumR_ext; intros; unfold predicted, Rdiv; ring).
  assert (D1 : forall l : list event, sumR l (fun e => c * weight e) = c * sumR l weight) by (intro; apply sumR_scal).
  assert (D2 : forall l : list event, sumR l (fun e => (c * weight e) ^ 2) = c ^ 2 * sumR l (fun e => weight e ^ 2)) by (intro l; rewrite <- sumR_scal; apply sumR_ext; intros; ring).
  rewrite !chi2_form by assumption. rewrite P1, P2. set (T := sumR mc (predicted weight genPdf fcn)).
  destruct (Req_EM_T T 0) as [Z|Z].
  - rewrite Z, Rmult_0_r. destruct (Req_EM_T 0 0); [split; reflexivity|contradiction].
  - destruct (Req_EM_T (c * T) 0) as [F|_]; [apply Rmult_integral in F; tauto|]. split; f_equal; apply terms_ext; intros b _; unfold term, rdiv.
    + replace (variance bin weight genPdf data mc (fun e => c * fcn e) b) with (variance bin weight genPdf data mc fcn b) by (unfold variance, scale_to, content; rewrite P1, Q1; fold T; field; tauto).
      replace (difference bin weight genPdf data mc (fun e => c * fcn e) b) with (difference bin weight genPdf data mc fcn b) by (unfold difference, scale_to, content; rewrite !P1; fold T; field; tauto). reflexivity.
    + replace (variance bin (fun e => c * weight e) genPdf data mc fcn b) with (c ^ 2 * variance bin weight genPdf data mc fcn b) by (unfold variance, scale_to, content; rewrite P2, Q2, D1, D2; fold T; field; tauto).
      replace (difference bin (fun e => c * weight e) genPdf data mc fcn b) with (c * difference bin weight genPdf data mc fcn b) by (unfold difference, scale_to, content; rewrite !P2, !D1; fold T; field; tauto).
      set (v := variance bin weight genPdf data mc fcn b). destruct (Req_EM_T v 0) as [Zv|Zv].
      * rewrite Zv, Rmult_0_r. destruct (Req_EM_T 0 0); [reflexivity|contradiction].
      * destruct (Req_EM_T (c ^ 2 * v) 0) as [F|_]; [apply Rmult_integral in F; tauto|]. f_equal. field. tauto.
Qed.
Print Assumptions C90_scale.

(** A bin without events, as two data with one value give (C37), makes the chi2 a quotient of zeros even where the prediction is right in all other bins. *)
Theorem C90_empty_bin_refuted : exists (bin : nat -> nat) weight genPdf size data mc fcn, usable bin genPdf size data mc /\ data = mc /\ sumR mc (predicted weight genPdf fcn) <> 0 /\
  (forall b, (b < size)%nat -> difference bin weight genPdf data mc fcn b = 0) /\ doChi2 bin weight genPdf size data mc fcn = Throw.
Proof.
  set (one := fun _ : nat => 1). exists (fun e => e), one, one, 2%nat, [1; 1]%nat, [1; 1]%nat, one.
  assert (U : usable (fun e => e) one 2 [1; 1]%nat [1; 1]%nat) by (split; [lia|]; split; [intros e I; cbn in I; lia|intros; unfold one; lra]).
  split; [exact U|]. split; [reflexivity|]. split; [unfold predicted, one; cbn; lra|]. split.
  - intros [|[|b]] H; [| |lia]; unfold difference, scale_to, predicted, content, one; cbn; field.
  - rewrite chi2_form by exact U. destruct (Req_EM_T _ 0) as [F|_]; [exfalso; unfold predicted, one in F; cbn in F; lra|].
    rewrite terms_throw; [reflexivity| |].
    + intro b'. unfold term, rdiv. destruct (Req_EM_T _ 0); [now left|right; eexists; reflexivity].
    + exists 0%nat. split; [now left|]. unfold term, rdiv. destruct (Req_EM_T _ 0) as [|F]; [reflexivity|]. exfalso. apply F. unfold variance, content; cbn. ring.
Qed.
Print Assumptions C90_empty_bin_refuted.
(** A binning that was made for other data can have no bin for an event; the event is written outside the array. *)
Theorem C90_outside_refuted : exists (bin : nat -> nat) weight genPdf size data mc fcn, doChi2 bin weight genPdf size data mc fcn = UB.
Proof. exists (fun e => e), (fun _ => 1), (fun _ => 1), 2%nat, [3]%nat, [], (fun _ => 1). reflexivity. Qed.
Print Assumptions C90_outside_refuted.
