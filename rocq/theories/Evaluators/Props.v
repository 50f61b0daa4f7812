(** C100: the functions used for plots give the density, and the components add up to it. *)
From Verif.Common Require Import Prelude.
From Coq Require Import Reals Lra.
From Coquelicot Require Import Hierarchy Complex.
From Verif.Store Require Import Model.
From Verif.Evaluators Require Import Model Spec Proofs.
Local Open Scope C_scope.

(** The values for the event at position i are those of position i, for any number of events per block and of blocks. *)
Theorem C100_evaluator : forall w n weight m_norm els i, (0 < w)%nat -> (N.of_nat n < 4294967296)%N -> NoDup (map name els) -> (i < n)%nat ->
  amplitudeEvaluator w n els i = Ok (amplitude els i) /\
  evaluator w n weight m_norm els i = Ok (weight / m_norm * Cmod (amplitude els i) ^ 2)%R /\
  incoherent_evaluator w n weight m_norm els i = Ok (weight / m_norm * sumR (rates els i))%R.
Proof.
  intros w n weight m_norm els i W H32 ND Hi. destruct (cache_ok AoS w n els ND) as (s & E & B & R).
  unfold amplitudeEvaluator, evaluator, incoherent_evaluator. rewrite E. cbn [bind]. rewrite B. pose proof (within w n i W H32 Hi) as In.
  assert (A : forall b, (b < blocks w n)%nat -> block_amp s b 0 els (zeros w) = Ok (map (fun k => amplitude els (b * w + k)%nat) (seq 0 w))).
  { intros b Hb. unfold zeros. rewrite repeat_map, (block_amp_ok w); [f_equal; apply map_ext; intro; ring|]. intros j e Hj. now apply R. }
  assert (A' : forall b, (b < blocks w n)%nat -> block_norm s b 0 els (repeat 0%R w) = Ok (map (fun k => sumR (rates els (b * w + k)%nat)) (seq 0 w))).
  { intros b Hb. rewrite repeat_map, (block_norm_ok w); [f_equal; apply map_ext; intro; ring|]. intros j e Hj. now apply R. }
  split; [|split].
  - rewrite (over_blocks_at w (amplitude els)) by (intros b Hb; apply A; lia). cbn [bind]. now rewrite values_at.
  - rewrite (over_blocks_at w (fun k => weight / m_norm * Cmod (amplitude els k) ^ 2)%R).
    + cbn [bind]. now rewrite values_at.
    + intros b Hb. rewrite A by lia. cbn [bind]. f_equal. rewrite map_map. apply map_ext. intro k. now rewrite norm_cmod.
  - rewrite (over_blocks_at w (fun k => weight / m_norm * sumR (rates els k))%R).
    + cbn [bind]. now rewrite values_at.
    + intros b Hb. rewrite A' by lia. cbn [bind]. f_equal. now rewrite map_map.
Qed.
Print Assumptions C100_evaluator.

(** One functor for every pair of elements; for every event they add up to the square of the amplitude. In the incoherent sum
    there is one for every element, and it gives the rate of this element. *)
Theorem C100_components : forall w n els i, (0 < w)%nat -> (N.of_nat n < 4294967296)%N -> NoDup (map name els) -> (i < n)%nat ->
  (exists l, componentEvaluator w n els i = Ok l /\ sumR l = (Cmod (amplitude els i) ^ 2)%R /\
     (2 * List.length l = List.length els * (List.length els + 1))%nat) /\
  incoherent_components w n els i = Ok (rates els i).
Proof.
  intros w n els i W H32 ND Hi. destruct (cache_ok SoA w n els ND) as (s & E & B & R).
  assert (G : forall m e, nth_error els m = Some e -> get SoA w s i (0 + m) = Ok (value e i)).
  { intros m e Hm. now apply (get_ok w n els). }
  unfold componentEvaluator, incoherent_components. rewrite E. cbn [bind]. split.
  - exists (all_rows i els). split; [now apply rows_ok|]. split; [apply rows_sum|apply all_rows_length].
  - now apply singles_ok.
Qed.
Print Assumptions C100_components.

(** A sum of distributions: the value for an event is the sum of those of the distributions, and the components are these. *)
Theorem C100_sum : forall n (Fs : list (nat -> R)) pdfs i, Forall2 (fun F p => forall k, (k < n)%nat -> p k = Ok (F k)) Fs pdfs -> (i < n)%nat ->
  sum_components pdfs i = Ok (map (fun F => F i) Fs) /\
  sum_evaluator (seq 0 n) pdfs i = Ok (sumR (map (fun F => F i) Fs)).
Proof.
  intros n Fs pdfs i H Hi. split.
  - unfold sum_components. induction H as [|F p Fs pdfs Hp _ IH]; [reflexivity|]. cbn [map all_values]. rewrite Hp by exact Hi. cbn [bind]. rewrite IH. reflexivity.
  - unfold sum_evaluator. rewrite seq_length, repeat_map, (add_pdfs_ok _ Fs).
    + cbn [bind]. rewrite values_at by exact Hi. f_equal. ring.
    + clear Hi. induction H as [|F p Fs pdfs Hp _ IH]; constructor; [|exact IH]. intros k Hk. apply in_seq in Hk. apply Hp. lia.
Qed.
Print Assumptions C100_sum.

(** The components are not the shares of what evaluator() gives: that is multiplied with the weight of the sum and divided by the
    normalisation, the components are not. *)
Theorem C100_scale_refuted : exists w n weight m_norm els i x l, NoDup (map name els) /\ (i < n)%nat /\
  evaluator w n weight m_norm els i = Ok x /\ componentEvaluator w n els i = Ok l /\ x <> sumR l.
Proof.
  pose (els := Element (S_ "a") (RtoC 1) (fun _ => RtoC 1) :: nil).
  assert (ND : NoDup (map name els)) by (repeat constructor; intros []).
  destruct (C100_evaluator 1 1 1%R 2%R els 0 ltac:(lia) ltac:(lia) ND ltac:(lia)) as (_ & E & _).
  destruct (C100_components 1 1 els 0 ltac:(lia) ltac:(lia) ND ltac:(lia)) as ((l & L & Sm & _) & _).
  exists 1%nat, 1%nat, 1%R, 2%R, els, 0%nat. do 2 eexists. split; [exact ND|]. split; [lia|]. split; [exact E|]. split; [exact L|].
  rewrite Sm. unfold els. cbn [amplitude fold_right coefficient value]. rewrite cmod2. cbn. lra.
Qed.
Print Assumptions C100_scale_refuted.

(** Two elements of the same name have one field, but the loops take field j for element j: reading beyond the storage. *)
Theorem C100_name_refuted : exists w n weight m_norm a b i, name a = name b /\ (i < n)%nat /\
  evaluator w n weight m_norm (a :: b :: nil) i = UB /\ componentEvaluator w n (a :: b :: nil) i = UB.
Proof.
  exists 1%nat, 2%nat, 1%R, 1%R, (Element (S_ "a") (RtoC 1) (fun _ => RtoC 1)), (Element (S_ "a") (RtoC 1) (fun _ => RtoC 1)), 0%nat.
  split; [reflexivity|]. split; [lia|]. split; reflexivity.
Qed.
Print Assumptions C100_name_refuted.

(** The hypotheses hold for two interfering amplitudes, three events in blocks of two: the interference is a component. *)
Example evaluators_meet :
  let a := Element (S_ "a") (RtoC 2) (fun k => RtoC (INR k)) in let b := Element (S_ "b") Ci (fun k => Ci * RtoC 3) in
  NoDup (map name (a :: b :: nil)) /\ evaluator 2 3 4 2 (a :: b :: nil) 2 = Ok 2%R /\
  componentEvaluator 2 3 (a :: b :: nil) 2 = Ok (16 :: -24 :: 9 :: nil)%R.
Proof.
  intros a b. assert (ND : NoDup (map name (a :: b :: nil))).
  { repeat constructor; [|intros []]. intros [X|[]]. discriminate X. }
  split; [exact ND|]. split.
  - destruct (C100_evaluator 2 3 4 2 (a :: b :: nil) 2 ltac:(lia) ltac:(lia) ND ltac:(lia)) as (_ & E & _). rewrite E. f_equal.
    unfold a, b. cbn [amplitude fold_right coefficient value]. rewrite cmod2. unfold Re, Im. cbn. lra.
  - destruct (cache_ok SoA 2 3 (a :: b :: nil) ND) as (s & E & B & R). unfold componentEvaluator. rewrite E. cbn [bind].
    rewrite rows_ok by (intros m e Hm; apply (get_ok 2 3 (a :: b :: nil)); [lia|lia|lia|exact R|exact Hm]).
    unfold a, b, all_rows, tail_row, cross. cbn [map app coefficient value]. f_equal. f_equal; [|f_equal; [|f_equal]]; unfold Re; cbn; lra.
Qed.
(** A sum of two distributions. *)
Example sum_meets : sum_evaluator (seq 0 2) ((fun k => Ok (INR k)) :: (fun _ => Ok 3%R) :: nil) 1 = Ok 4%R.
Proof.
  destruct (C100_sum 2 ((fun k => INR k) :: (fun _ => 3%R) :: nil) ((fun k => Ok (INR k)) :: (fun _ => Ok 3%R) :: nil) 1) as [_ E]; [|lia|].
  - repeat constructor.
  - rewrite E. f_equal. cbn. lra.
Qed.
