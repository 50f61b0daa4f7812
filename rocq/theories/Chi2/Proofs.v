From Coq Require Import Reals List Lia Lra Permutation.
From Verif.Common Require Import Prelude Writes.
From Verif.Chi2 Require Import Model Spec.
Import ListNotations.
Local Open Scope R_scope.

Lemma sumR_ext {A} (l : list A) f g : (forall a, In a l -> f a = g a) -> sumR l f = sumR l g.
Proof. induction l as [|a l IH]; intro H; [reflexivity|]. cbn. rewrite (H a) by now left. f_equal. apply IH. intros; apply H; now right. Qed.
Lemma sumR_scal {A} (l : list A) c f : sumR l (fun a => c * f a) = c * sumR l f.
Proof. induction l as [|a l IH]; cbn; [ring|]. unfold sumR in IH. rewrite IH. ring. Qed.
Lemma sumR_plus {A} (l : list A) f g : sumR l (fun a => f a + g a) = sumR l f + sumR l g.
Proof. induction l as [|a l IH]; cbn; [ring|]. unfold sumR in IH. rewrite IH. ring. Qed.
Lemma sumR_perm {A} (l l' : list A) f : Permutation l l' -> sumR l f = sumR l' f.
Proof. induction 1; cbn; try lra. unfold sumR in *. lra. Qed.
Lemma filter_perm {A} (p : A -> bool) l l' : Permutation l l' -> Permutation (filter p l) (filter p l').
Proof.
  induction 1 as [|x l l' H IH|x y l|l l' l'' H IH H' IH']; cbn; [constructor|destruct (p x); [now constructor|assumption]| |exact (perm_trans IH IH')].
  destruct (p x), (p y); try apply Permutation_refl. apply perm_swap.
Qed.

Section Fill.
  Context {event : Type}.
  Variables (bin : event -> nat).
  Lemma fill_ok (w : event -> res R) (v : event -> R) size events : (forall e, In e events -> w e = Ok (v e)) -> (forall e, In e events -> (bin e < size)%nat) ->
    forall bins total, List.length bins = size -> exists bins', fill bin w events bins total = Ok (bins', total + sumR events v) /\ List.length bins' = size /\
      forall b m, nth_error bins b = Some m -> exists m', nth_error bins' b = Some m' /\ x m' = x m + content bin events v b /\ xx m' = xx m + content bin events (fun e => v e ^ 2) b /\
        N m' = (N m + List.length (filter (fun e => Nat.eqb (bin e) b) events))%nat.
  Proof.
    intros Hw Hb. induction events as [|e r IH]; intros bins total L; cbn [fill].
    - exists bins. split; [do 2 f_equal; cbn; ring|]. split; [exact L|]. intros b m E. exists m. split; [exact E|]. unfold content; cbn. repeat split; try ring; lia.
    - rewrite (Hw e) by now left. cbn [bind]. assert (Be : (bin e < List.length bins)%nat) by (rewrite L; apply Hb; now left).
      destruct (nth_error bins (bin e)) as [me|] eqn:Ee; [|apply nth_error_None in Ee; lia].
      destruct (set_at_Some (bin e) (add me (v e)) bins Be) as (bins1 & -> & L1 & H1).
      destruct (IH (fun e' I => Hw e' (or_intror I)) (fun e' I => Hb e' (or_intror I)) bins1 (total + v e)) as (bins' & -> & L' & H'); [congruence|].
      exists bins'. split; [do 2 f_equal; cbn; unfold sumR; ring|]. split; [exact L'|]. intros b m E.
      unfold content. cbn [filter]. destruct (Nat.eqb_spec (bin e) b) as [<- | Nb].
      + rewrite E in Ee. injection Ee as <-. destruct (H' (bin e) (add m (v e))) as (m' & E' & A & B & C); [rewrite H1, Nat.eqb_refl; reflexivity|].
        exists m'. split; [exact E'|]. cbn [x xx N add] in A, B, C. cbn [sumR fold_right List.length]. unfold content, sumR in *. rewrite A, B, C. repeat split; try ring; lia.
      + apply (H' b m). rewrite H1. destruct (Nat.eqb_spec b (bin e)); [congruence|exact E].
  Qed.
  Lemma content_empty events v b : List.length (filter (fun e => Nat.eqb (bin e) b) events) = O -> content bin events v b = 0.
  Proof. unfold content. destruct (filter _ events); [reflexivity|discriminate]. Qed.
End Fill.

Definition term {event} (bin : event -> nat) weight genPdf data mc fcn (b : nat) : res R :=
  rdiv (difference bin weight genPdf data mc fcn b ^ 2) (variance bin weight genPdf data mc fcn b).
Fixpoint terms (f : nat -> res R) (l : list nat) (s : R) : res R := match l with [] => Ok s | b :: r => bind (f b) (fun t => terms f r (s + t)) end.
Lemma terms_ext f g l : (forall b, In b l -> f b = g b) -> forall s, terms f l s = terms g l s.
Proof. induction l as [|b l IH]; intros H s; [reflexivity|]. cbn. rewrite (H b) by now left. destruct (g b); try reflexivity. cbn. apply IH. intros; apply H; now right. Qed.
Lemma loop_terms k f : forall data mc n s, List.length data = List.length mc ->
  (forall b d m, nth_error data b = Some d -> nth_error mc b = Some m -> f (n + b)%nat = rdiv ((x d - x m * k) * (x d - x m * k)) (var d + var (rescale m k))) ->
  loop k data mc s = terms f (seq n (List.length data)) s.
Proof.
  induction data as [|d data IH]; intros [|m mc] n s L H; try discriminate; [reflexivity|]. cbn [loop List.length seq terms]. rewrite <- (Nat.add_0_r n) at 1. rewrite (H 0%nat d m eq_refl eq_refl).
  cbn [x rescale]. destruct (rdiv _ _) as [t| | |]; try reflexivity. cbn [bind]. apply IH; [cbn in L; lia|]. intros b d' m' Ed Em. replace (S n + b)%nat with (n + S b)%nat by lia. now apply H.
Qed.
Lemma nth_repeat_some {A} (a : A) n b : (b < n)%nat -> nth_error (repeat a n) b = Some a.
Proof. revert b; induction n as [|n IH]; intros [|b] H; [lia|lia|reflexivity|]. cbn. apply IH. lia. Qed.
Lemma chi2_form {event} bin weight genPdf size (data mc : list event) fcn : usable bin genPdf size data mc ->
  doChi2 bin weight genPdf size data mc fcn = if Req_EM_T (sumR mc (predicted weight genPdf fcn)) 0 then Throw
     else bind (terms (term bin weight genPdf data mc fcn) (seq 0 size) 0) (fun c => Ok (c, size)).
Proof.
  intros (Hs & Hb & Hg). unfold doChi2.
  destruct (fill_ok bin (fun e => Ok (weight e)) weight size data (fun _ _ => eq_refl) (fun e I => Hb e (in_or_app _ _ _ (or_introl I))) (repeat empty size) 0 (repeat_length _ _)) as (D & -> & LD & HD). cbn [bind].
  destruct (fill_ok bin (fun e => rdiv (fcn e * weight e) (genPdf e)) (predicted weight genPdf fcn) size mc) with (bins := repeat empty size) (total := 0) as (M & -> & LM & HM).
  - intros e I. unfold rdiv. destruct (Req_EM_T (genPdf e) 0); [now destruct (Hg e I)|reflexivity].
  - intros e I. apply Hb. apply in_or_app. now right.
  - apply repeat_length.
  - cbn [bind]. destruct size as [|size']; [lia|]. rewrite !Rplus_0_l. unfold rdiv at 1. destruct (Req_EM_T (sumR mc (predicted weight genPdf fcn)) 0) as [|Nz]; [reflexivity|]. cbn [bind].
    rewrite (loop_terms _ (term bin weight genPdf data mc fcn) D M 0); [now rewrite LD|congruence|].
    intros b d m Ed Em. rewrite Nat.add_0_l. assert (Lb : (b < S size')%nat) by (rewrite <- LD; apply nth_error_Some; congruence).
    destruct (HD b empty (nth_repeat_some _ _ _ Lb)) as (d' & Ed' & X1 & XX1 & N1). destruct (HM b empty (nth_repeat_some _ _ _ Lb)) as (m' & Em' & X2 & XX2 & N2).
    rewrite Ed in Ed'. injection Ed' as <-. rewrite Em in Em'. injection Em' as <-. cbn [x xx N empty] in *.
    assert (V1 : var d = xx d). { unfold var. destruct (N d) eqn:E; [|reflexivity]. rewrite XX1, content_empty by (symmetry in N1; lia). ring. }
    assert (V2 : var (rescale m (sumR data weight / sumR mc (predicted weight genPdf fcn))) = xx m * (scale_to weight genPdf data mc fcn) ^ 2).
    { unfold var. cbn [N rescale xx]. fold (scale_to weight genPdf data mc fcn). destruct (N m) eqn:E; [|ring]. rewrite XX2, content_empty by (symmetry in N2; lia). ring. }
    unfold term, difference, variance. rewrite V1, V2, X1, X2, XX1, XX2. fold (scale_to weight genPdf data mc fcn). f_equal; ring.
Qed.
Lemma terms_value f g l : (forall b, In b l -> f b = Ok (g b)) -> forall s, terms f l s = Ok (s + sumR l g).
Proof. induction l as [|b l IH]; intros H s; cbn; [f_equal; ring|]. rewrite (H b) by now left. cbn. rewrite IH by (intros; apply H; now right). f_equal. unfold sumR. ring. Qed.
Lemma terms_throw f l : (forall b, f b = Throw \/ exists v, f b = Ok v) -> (exists b, In b l /\ f b = Throw) -> forall s, terms f l s = Throw.
Proof.
  intros Hf. induction l as [|b l IH]; intros (b0 & I & E) s; [destruct I|]. cbn. destruct (Hf b) as [-> | [v Ev]]; [reflexivity|]. rewrite Ev. cbn. apply IH. destruct I as [<- | I]; [congruence|now exists b0].
Qed.
Lemma sumR_nonneg {A} (l : list A) f : (forall a, In a l -> 0 <= f a) -> 0 <= sumR l f.
Proof. induction l as [|a l IH]; intro H; cbn; [lra|]. assert (0 <= f a) by (apply H; now left). assert (0 <= sumR l f) by (apply IH; intros; apply H; now right). unfold sumR in *. lra. Qed.
Lemma sumR_zero {A} (l : list A) f : (forall a, In a l -> 0 <= f a) -> sumR l f = 0 -> forall a, In a l -> f a = 0.
Proof.
  induction l as [|a l IH]; intros H E b I; [destruct I|]. cbn in E. fold (sumR l f) in E. assert (0 <= f a) by (apply H; now left). assert (0 <= sumR l f) by (apply sumR_nonneg; intros; apply H; now right).
  destruct I as [<- | I]; [lra|]. apply IH; [intros; apply H; now right|lra|exact I].
Qed.
Lemma variance_nonneg {event} bin weight genPdf (data mc : list event) fcn b : 0 <= variance bin weight genPdf data mc fcn b.
Proof.
  unfold variance, content. apply Rplus_le_le_0_compat; [apply sumR_nonneg; intros; apply pow2_ge_0|]. apply Rmult_le_pos; [apply pow2_ge_0|]. apply sumR_nonneg; intros; apply pow2_ge_0.
Qed.
Lemma content_total {event} (bin : event -> nat) l v size : (forall e, In e l -> (bin e < size)%nat) -> sumR (seq 0 size) (content bin l v) = sumR l v.
Proof.
  intro H. induction l as [|e l IH].
  - cbn. rewrite (sumR_ext _ _ (fun _ => 0 * 0)); [rewrite sumR_scal; ring|]. intros; unfold content; cbn; ring.
  - rewrite (sumR_ext _ _ (fun b => (if Nat.eqb (bin e) b then v e else 0) + content bin l v b)).
    + rewrite sumR_plus, IH by (intros; apply H; now right). change (sumR (e :: l) v) with (v e + sumR l v). f_equal. unfold sumR. assert (Be : (bin e < size)%nat) by (apply H; now left). clear - Be.
      assert (G : forall n s, (s <= bin e < s + n)%nat -> fold_right (fun a t => (if Nat.eqb (bin e) a then v e else 0) + t) 0 (seq s n) = v e).
      { induction n as [|n IHn]; intros s B; [lia|]. cbn. destruct (Nat.eqb_spec (bin e) s) as [E|E].
        - assert (Z : forall n s', (bin e < s')%nat -> fold_right (fun a t => (if Nat.eqb (bin e) a then v e else 0) + t) 0 (seq s' n) = 0).
          { induction n0 as [|n0 IH0]; intros s' Bs; [reflexivity|]. cbn. destruct (Nat.eqb_spec (bin e) s'); [lia|]. rewrite IH0 by lia. ring. }
          rewrite Z by lia. ring.
        - rewrite IHn by lia. ring. }
      apply G. lia.
    + intros b _. unfold content. cbn [filter]. destruct (Nat.eqb (bin e) b); cbn; unfold sumR; ring.
Qed.
