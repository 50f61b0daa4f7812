From Coq Require Import Reals Lra.
From Verif.Common Require Import Prelude.
From Verif.Store Require Import Model.
From Verif.Coherent Require Import Model Spec Proofs Real.
From Verif.Incoherent Require Import Model Spec Proofs.
Local Open Scope R_scope.

(** ** C85 *)
(** After any history that ends with prepare(), the density of every event of the data set, from the caches, and of every event whatsoever,
    without them, is the sum of the squared terms for the present parameters; the normalised densities differ by the order of the division. *)
Theorem C85_density : forall (Ev : Type) (wt : Ev -> R) (V : Type) (veqb : V -> V -> bool) (P : Type)
    (els : list (element R Ev V P * list V)) (h : list (act Ev P)) (p0 : P) (c : cplx R) (v : R),
  (forall a b, reflect (a = b) (veqb a b)) -> sound els -> short h ->
  let p := now_p p0 h in
  exists s, run R RS Ev wt V veqb P (h ++ [Prepare]) (p0, start R RS Ev V P els c v) = Ok (p, s) /\
    (forall x, prob_no_cache R RS Ev V P s x = incoherent Ev V P p els x) /\
    (forall weight x, evaluator R RS Ev V P weight s x = weight * incoherent Ev V P p els x / m_norm s) /\
    (forall i y x, nth_error els i = Some y -> component R RS Ev V P s i x = Ok (size2 (cmul RS (coupling (fst y) p) (fresh R Ev V P p y x)))) /\
    forall evts e x, now_events h = Some evts -> nth_error evts e = Some x ->
      prob_unnormalised R RS Ev V P s e = Ok (incoherent Ev V P p els x) /\
      forall weight, prob R RS Ev V P weight s e = Ok (weight * incoherent Ev V P p els x / m_norm s) /\
        prob_block R RS Ev V P weight s e = Ok (weight * incoherent Ev V P p els x / m_norm s).
Proof.
  intros Ev wt V veqb P els h p0 c v Hv Hs Hh p. destruct (never_stale_current R RS Ev wt V veqb P Hv els Hs h p0 c v Hh) as (s & E & [Pe _] & Cu). fold p in E, Pe, Cu.
  exists s. split; [exact E|]. split; [intro x; now apply no_cache_ok|]. split; [intros w x; unfold evaluator; rewrite (no_cache_ok Ev V P els p s Cu); cbn; unfold Rdiv; ring|].
  split; [intros i y x H; now apply (component_ok Ev V P els p s Cu)|]. intros evts e x He Hx. rewrite He in Pe.
  assert (U : prob_unnormalised R RS Ev V P s e = Ok (incoherent Ev V P p els x)) by (apply (unnormalised_ok Ev V P els p s Cu); exact (proj1 (Pe e x Hx))).
  split; [exact U|]. intro w. unfold prob, prob_block. rewrite U. cbn. split; f_equal; unfold Rdiv; ring.
Qed.
Print Assumptions C85_density.

(** norm() of an incoherent sum is the mean of its density over the integration sample; the components have means that add up to it. *)
Theorem C85_norm : forall (Ev : Type) (wt : Ev -> R) (V : Type) (veqb : V -> V -> bool) (P : Type)
    (els : list (element R Ev V P * list V)) (h : list (act Ev P)) (p0 : P) (c : cplx R) (v : R) (mc : list Ev),
  (forall a b, reflect (a = b) (veqb a b)) -> sound els -> short h -> now_mc h = Some mc ->
  let p := now_p p0 h in
  exists s, run R RS Ev wt V veqb P (h ++ [Prepare]) (p0, start R RS Ev V P els c v) = Ok (p, s) /\
    norm R RS Ev V P s = Ok (mean Ev wt (incoherent Ev V P p els) mc) /\
    mean Ev wt (incoherent Ev V P p els) mc = Rsum (fun y => mean Ev wt (fun x => size2 (cmul RS (coupling (fst y) p) (fresh R Ev V P p y x))) mc) els.
Proof.
  intros Ev wt V veqb P els h p0 c v mc Hv Hs Hh Hm p. destruct (never_stale_current R RS Ev wt V veqb P Hv els Hs h p0 c v Hh) as (s & E & [_ Pm] & Cu). fold p in E, Pm, Cu.
  rewrite Hm in Pm. destruct Pm as [Pn _]. exists s. split; [exact E|]. split.
  - apply (norm_ok Ev wt V P els p s Cu mc). intros i y H. apply Pn; [apply le_n|exact H|exact H].
  - rewrite mean_incoherent. apply rsum_ext. intros y _. symmetry. apply mean_share.
Qed.
Print Assumptions C85_norm.

(** The fit fractions for the parameters of the last prepare() are the shares of the terms in the mean density: not negative, and
    their sum, which is reported with them, is 1. *)
Theorem C85_fractions : forall (Ev : Type) (wt : Ev -> R) (V : Type) (veqb : V -> V -> bool) (P : Type)
    (els : list (element R Ev V P * list V)) (h : list (act Ev P)) (p0 : P) (c : cplx R) (v : R) (mc : list Ev),
  (forall a b, reflect (a = b) (veqb a b)) -> sound els -> short h -> now_mc h = Some mc ->
  let p := now_p p0 h in mean Ev wt (incoherent Ev V P p els) mc <> 0 ->
  exists s f, run R RS Ev wt V veqb P (h ++ [Prepare]) (p0, start R RS Ev V P els c v) = Ok (p, s) /\
    fractions R RS Ev V P p s = Ok (f, 1) /\ Rsum (fun x => x) f = 1 /\
    f = map (fun y => mean Ev wt (fun x => size2 (cmul RS (coupling (fst y) p) (fresh R Ev V P p y x))) mc / mean Ev wt (incoherent Ev V P p els) mc) els /\
    ((forall x, In x mc -> 0 <= wt x) -> 0 < Rsum wt mc -> Forall (fun x => 0 <= x <= 1) f).
Proof.
  intros Ev wt V veqb P els h p0 c v mc Hv Hs Hh Hm p N. destruct (never_stale_current R RS Ev wt V veqb P Hv els Hs h p0 c v Hh) as (s & E & [_ Pm] & Cu). fold p in E, Pm, Cu.
  rewrite Hm in Pm. destruct Pm as [Pn _]. rewrite mean_incoherent in N. set (F := fun y => share Ev wt V P p mc p y / Rsum (share Ev wt V P p mc p) els).
  assert (S1 : forall l k, Rsum (fun x => x) (map (fun y => share Ev wt V P p mc p y / k) l) = Rsum (share Ev wt V P p mc p) l / k).
  { induction l as [|y l IH]; intro k; cbn [map Rsum fold_right]; [unfold Rdiv; ring|]. unfold Rsum in *. rewrite IH. unfold Rdiv. ring. }
  exists s, (map F els). split; [exact E|]. split; [|split; [|split]].
  - rewrite (fractions_ok Ev wt V P els p s Cu mc); [|intros i y H; apply Pn; [apply le_n|exact H|exact H]]. f_equal. f_equal. now field.
  - unfold F. rewrite S1. now field.
  - apply map_ext. intro y. unfold F. now rewrite mean_incoherent, mean_share.
  - intros Hw Ht. apply Forall_forall. intros x Hx. apply in_map_iff in Hx. destruct Hx as (y & <- & Hy). unfold F.
    assert (Q : forall z, 0 <= share Ev wt V P p mc p z) by (intro z; now apply share_nonneg).
    assert (B : share Ev wt V P p mc p y <= Rsum (share Ev wt V P p mc p) els).
    { assert (Z : forall l, 0 <= Rsum (share Ev wt V P p mc p) l) by (induction l as [|z l IH]; cbn [Rsum fold_right]; [lra|]; specialize (Q z); unfold Rsum in IH; lra).
      clear - Hy Q Z. induction els as [|z l IH]; [destruct Hy|]. cbn [Rsum fold_right]. fold (Rsum (share Ev wt V P p mc p) l). destruct Hy as [->|Hy]; [specialize (Z l); lra|]. specialize (IH Hy). specialize (Q z). lra. }
    assert (0 < Rsum (share Ev wt V P p mc p) els) by (specialize (Q y); lra). split; [apply Rmult_le_pos; [apply Q|left; now apply Rinv_0_lt_compat]|].
    apply Rmult_le_reg_r with (Rsum (share Ev wt V P p mc p) els); [assumption|]. unfold Rdiv. rewrite Rmult_assoc, Rinv_l by lra. lra.
Qed.
Print Assumptions C85_fractions.

(** The mean of the normalised density over the integration sample is the weight of the sum when the interference terms average to nothing;
    in general it is the weight times the ratio of the two means. *)
Theorem C85_normalised_partial : forall (Ev : Type) (wt : Ev -> R) (V : Type) (veqb : V -> V -> bool) (P : Type)
    (els : list (element R Ev V P * list V)) (h : list (act Ev P)) (p0 : P) (c : cplx R) (v : R) (mc : list Ev) (weight : R),
  (forall a b, reflect (a = b) (veqb a b)) -> sound els -> short h -> now_mc h = Some mc ->
  let p := now_p p0 h in
  exists s, run R RS Ev wt V veqb P (h ++ [Prepare]) (p0, start R RS Ev V P els c v) = Ok (p, s) /\
    mean Ev wt (evaluator R RS Ev V P weight s) mc = weight * mean Ev wt (incoherent Ev V P p els) mc / mean Ev wt (coherent Ev V P p els) mc /\
    (mean Ev wt (coherent Ev V P p els) mc <> 0 -> mean Ev wt (coherent Ev V P p els) mc = mean Ev wt (incoherent Ev V P p els) mc ->
     mean Ev wt (evaluator R RS Ev V P weight s) mc = weight).
Proof.
  intros Ev wt V veqb P els h p0 c v mc w Hv Hs Hh Hm p. destruct (never_stale_current R RS Ev wt V veqb P Hv els Hs h p0 c v Hh) as (s & E & [_ Pm] & Cu). fold p in E, Pm, Cu.
  rewrite Hm in Pm. destruct Pm as [_ Pv]. exists s. split; [exact E|].
  assert (M : mean Ev wt (evaluator R RS Ev V P w s) mc = w * mean Ev wt (incoherent Ev V P p els) mc / mean Ev wt (coherent Ev V P p els) mc).
  { rewrite fresh_norm_mean in Pv. replace (mean Ev wt (coherent Ev V P p els) mc) with (m_norm s) by exact Pv. unfold mean.
    rewrite (rsum_ext _ (fun x => w / m_norm s * (wt x * incoherent Ev V P p els x))) by (intros x _; unfold evaluator; rewrite (no_cache_ok Ev V P els p s Cu); cbn; unfold Rdiv; ring).
    rewrite rsum_scale. unfold Rdiv. ring. }
  split; [exact M|]. intros N Eq. rewrite M, <- Eq. now field.
Qed.
Print Assumptions C85_normalised_partial.

Definition i1 : element R R R R := Element R R R R (S_ "D0{K*,pi}") (fun q x => (nth 0 q 0 * x, 0)) [(0%nat, fun p => p)] (fun p => (1, 0)).
Definition i2 : element R R R R := Element R R R R (S_ "D0{rho,K}") (fun q x => (x, 0)) [] (fun p => (p, 0)).
Definition both : list (element R R R R * list R) := [(i1, [7]); (i2, [])].
Definition hist : list (act R R) := [SetEvents [3]; SetMC [1; 2]; Prepare; SetP 1].
Lemma both_sound : sound both.
Proof.
  split; [apply NoDup_cons; [intros [H|[]]; discriminate|apply NoDup_cons; [intros []|constructor]]|].
  intros x a f [<-|[<-|[]]] H; [destruct H as [H|[]]; injection H as <- _; cbn; apply le_n|destruct H].
Qed.
Lemma hist_short : short hist.
Proof. intros a [<-|[<-|[<-|[<-|[]]]]]; solve [exact I|vm_compute; reflexivity]. Qed.
Definition reqb (a b : R) : bool := if Req_EM_T a b then true else false.
Lemma reqb_spec a b : reflect (a = b) (reqb a b). Proof. unfold reqb. destruct (Req_EM_T a b); constructor; assumption. Qed.
Lemma both_incoherent p : mean R (fun _ => 1) (incoherent R R R p both) [1; 2] = 5 / 2 * (p * p + p * p).
Proof. unfold mean, incoherent, both, Rsum, size2. cbn. unfold values_from, value_at. cbn. field. Qed.
Lemma both_coherent p : mean R (fun _ => 1) (coherent R R R p both) [1; 2] = 5 / 2 * (p + p) ^ 2.
Proof. unfold mean, coherent, both, Rsum, size2, fresh_sum. cbn. unfold values_from, value_at. cbn. field. Qed.
Example C85_example : (forall a b, reqb a b = true <-> a = b) /\ sound both /\ short hist /\ now_mc hist = Some [1; 2] /\ now_events hist = Some [3] /\ now_p 5 hist = 1 /\
  mean R (fun _ => 1) (incoherent R R R (now_p 5 hist) both) [1; 2] = 5.
Proof. split; [intros a b; symmetry; apply reflect_iff, reqb_spec|]. split; [exact both_sound|]. split; [exact hist_short|]. repeat split. cbn [now_p hist fold_left]. rewrite both_incoherent. lra. Qed.

(** The density of an incoherent sum is not normalised: prepare() sets the normalisation by CoherentSum::updateNorms, whose call of
    norm() is that of CoherentSum, with the interference between the terms; IncoherentSum::norm() hides it and is not virtual. With two equal
    real amplitudes the density integrates to one half. *)
Theorem C85_normalised_refuted : exists (els : list (element R R R R * list R)) (h : list (act R R)) (mc : list R) (p0 : R) s,
  sound els /\ short h /\ now_mc h = Some mc /\
  run R RS R (fun _ => 1) R reqb R (h ++ [Prepare]) (p0, start R RS R R R els (0, 0) 1) = Ok (now_p p0 h, s) /\
  mean R (fun _ => 1) (evaluator R RS R R R 1 s) mc = 1 / 2 /\
  norm R RS R R R s = Ok 5 /\ m_norm s = 10.
Proof.
  destruct (never_stale_current R RS R (fun _ => 1) R reqb R reqb_spec both both_sound hist 5 (0, 0) 1 hist_short) as (s & E & [_ Pm] & Cu).
  change (now_mc hist) with (Some [1; 2]) in Pm. cbv iota in Pm. change (now_p 5 hist) with 1 in Pm, Cu. destruct Pm as [Pn Pv].
  rewrite fresh_norm_mean in Pv. assert (Mn : m_norm s = 10) by (etransitivity; [exact Pv|]; etransitivity; [exact (both_coherent 1)|lra]).
  exists both, hist, [1; 2], 5, s. split; [exact both_sound|]. split; [exact hist_short|]. split; [reflexivity|]. split; [exact E|]. split; [|split; [|exact Mn]].
  - unfold mean. rewrite (rsum_ext _ (fun x => 1 / 10 * (1 * incoherent R R R 1 both x))) by (intros x _; unfold evaluator; rewrite (no_cache_ok R R R both 1 s Cu), Mn; cbn [kmul kdiv RS]; unfold Rdiv; ring).
    rewrite rsum_scale. pose proof (both_incoherent 1) as B. unfold mean in B. unfold Rdiv in *. rewrite Rmult_assoc. rewrite B. lra.
  - rewrite (norm_ok R (fun _ => 1) R R both 1 s Cu [1; 2]); [f_equal; rewrite both_incoherent; lra|]. intros i y H. apply Pn; [apply le_n|exact H|exact H].
Qed.
Print Assumptions C85_normalised_refuted.

(** fitFractions transfers the couplings of the present parameters, but not the amplitudes: when a parameter of an amplitude has changed since
    the last prepare(), as in the variations from which their errors are computed, the fractions are those of the old amplitudes. *)
Theorem C85_fractions_refuted : exists (els : list (element R R R R * list R)) (h : list (act R R)) (mc : list R) (p0 q : R) s f,
  sound els /\ short h /\ now_mc h = Some mc /\
  run R RS R (fun _ => 1) R reqb R (h ++ [Prepare]) (p0, start R RS R R R els (0, 0) 1) = Ok (now_p p0 h, s) /\
  fractions R RS R R R q s = Ok (f, 1) /\ f = [1 / 5; 4 / 5] /\
  map (fun y => mean R (fun _ => 1) (fun x => size2 (cmul RS (coupling (fst y) q) (fresh R R R R q y x))) mc / mean R (fun _ => 1) (incoherent R R R q els) mc) els = [1 / 2; 1 / 2].
Proof.
  destruct (never_stale_current R RS R (fun _ => 1) R reqb R reqb_spec both both_sound hist 5 (0, 0) 1 hist_short) as (s & E & [_ Pm] & Cu).
  change (now_mc hist) with (Some [1; 2]) in Pm. cbv iota in Pm. change (now_p 5 hist) with 1 in Pm, Cu. destruct Pm as [Pn _].
  exists both, hist, [1; 2], 5, 2, s, [1 / 5; 4 / 5]. split; [exact both_sound|]. split; [exact hist_short|]. split; [reflexivity|]. split; [exact E|]. split; [|split; [reflexivity|]].
  - rewrite (fractions_ok R (fun _ => 1) R R both 1 s Cu [1; 2]); [|intros i y H; apply Pn; [apply le_n|exact H|exact H]].
    assert (A : share R (fun _ => 1) R R 1 [1; 2] 2 (i1, [7]) = 5 / 2) by (unfold share, mean, Rsum, size2; cbn; unfold values_from, value_at; cbn; field).
    assert (B : share R (fun _ => 1) R R 1 [1; 2] 2 (i2, []) = 10) by (unfold share, mean, Rsum, size2; cbn; unfold values_from, value_at; cbn; field).
    unfold both. cbn [map Rsum fold_right]. rewrite A, B. f_equal. replace (5 / 2 / (5 / 2 + (10 + 0))) with (1 / 5) by field. replace (10 / (5 / 2 + (10 + 0))) with (4 / 5) by field. replace ((5 / 2 + (10 + 0)) / (5 / 2 + (10 + 0))) with 1 by field. reflexivity.
  - rewrite both_incoherent. unfold both. cbn [map]. apply f_equal2; [|apply f_equal2; [|reflexivity]]; unfold mean, Rsum, size2; cbn; unfold values_from, value_at; cbn; field.
Qed.
Print Assumptions C85_fractions_refuted.
