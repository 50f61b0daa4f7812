From Coq Require Import Reals Lra Lia.
From Verif.Common Require Import Prelude Writes.
From Verif.Coherent Require Import Model Real.
From Verif.Minuit Require Import Model.
From Verif.Fit Require Import Model Spec Proofs.
Local Open Scope R_scope.

(** ** C86 *)
(** The value of a sum of densities on a sample is minus twice the logarithm of its likelihood for the present parameters, whatever the
    densities were prepared for before; it is a number exactly when the density is positive at every event. *)
Theorem C86_likelihood : forall (Q Ev : Type) (weight : Ev -> R) (q : Q) (fs : list (pdf Q Ev)) (l : list Ev),
  ((forall x, In x l -> 0 < mixture (map density fs) q x) ->
   exists fs' v, getVal Q Ev weight q fs (Some l) = Ok (fs', Some v) /\ exp (- v / 2) = likelihood weight (map density fs) q l /\ v = -2 * ln (likelihood weight (map density fs) q l)) /\
  ((exists x, In x l /\ mixture (map density fs) q x <= 0) -> exists fs', getVal Q Ev weight q fs (Some l) = Ok (fs', None)).
Proof.
  intros Q Ev weight q fs l. split.
  - intro H. exists (map (prepare_pdf Q Ev q) fs), (-2 * ln (likelihood weight (map density fs) q l)). split; [now apply getVal_ok|]. split; [|reflexivity].
    replace (- (-2 * ln (likelihood weight (map density fs) q l)) / 2) with (ln (likelihood weight (map density fs) q l)) by field. apply exp_ln, likelihood_pos.
  - intros (x & Hx & Hm). exists (map (prepare_pdf Q Ev q) fs). unfold getVal. f_equal. f_equal.
    replace (all_numbers _) with (@None (list R)); [reflexivity|]. symmetry. induction l as [|y l IH]; [destruct Hx|]. cbn [fill_likelihood map all_numbers]. rewrite total_mixture. unfold log_ at 1.
    destruct Hx as [->|Hx]; [destruct (Rlt_dec _ _); [lra|reflexivity]|]. destruct (Rlt_dec _ _); [|reflexivity]. unfold fill_likelihood in IH. now rewrite IH.
Qed.
Print Assumptions C86_likelihood.
Definition two : list (pdf R R) := [Pdf 7 (fun q x => q * x); Pdf 8 (fun q x => x * x)].
Example C86_likelihood_example : (forall x, In x [1; 2] -> 0 < mixture (map density two) 3 x) /\ likelihood (fun _ => 1) (map density two) 3 [1; 2] = 40.
Proof.
  split; [intros x [<-|[<-|[]]]; cbn; lra|]. cbn. rewrite !Rpower_1 by lra. lra.
Qed.

(** A simultaneous fit has the product of the likelihoods. *)
Theorem C86_simultaneous : forall (Ls : list R), (forall L, In L Ls -> 0 < L) -> exp (- simfit (map (fun L => -2 * ln L) Ls) / 2) = product Ls.
Proof.
  intros Ls H. rewrite simfit_product. f_equal. induction Ls as [|L Ls IH]; [reflexivity|]. cbn [map]. rewrite exp_ln by (apply H; now left). rewrite IH by (intros; apply H; now right). reflexivity.
Qed.
Print Assumptions C86_simultaneous.
Example C86_simultaneous_example : product [2; 3] = 6. Proof. cbn. lra. Qed.

(** With Gaussian constraints, a fit minimises minus twice the logarithm of the likelihood times the densities of the constrained parameters,
    up to the constant that normalises it. *)
Theorem C86_constrained_partial : forall (coefs norms : list R -> list (cplx R)) (L : list R -> R) (cs : list (nat * R * R)) (ll_zero : R) (v : list R),
  0 < L v -> (forall k m s, In (k, m, s) cs -> (k < List.length v)%nat /\ s <> 0) ->
  exists r, objective coefs norms (fun v => -2 * ln (L v)) (to_terms cs) ll_zero v = Ok r /\ exp (- (r + ll_zero) / 2) = L v * gaussians cs v.
Proof.
  intros coefs norms L cs z v HL H. unfold objective. rewrite constrained by assumption. cbn [bind]. eexists. split; [reflexivity|].
  replace (- (-2 * ln (L v) - 2 * ln (gaussians cs v) - z + z) / 2) with (ln (L v) + ln (gaussians cs v)) by field.
  rewrite exp_plus, !exp_ln; [reflexivity|apply gaussians_pos|exact HL].
Qed.
Print Assumptions C86_constrained_partial.
Example C86_constrained_example : (forall k m s, In (k, m, s) [(1%nat, 3, 2)] -> (k < List.length [5; 7])%nat /\ s <> 0) /\ gaussians [(1%nat, 3, 2)] [5; 7] = exp (-2).
Proof. split; [intros k m s [H|[]]; injection H as <- <- <-; cbn; split; [lia|lra]|]. unfold gaussians, product, gauss. cbn. rewrite Rmult_1_r. f_equal. lra. Qed.

(** The LASSO penalty has the wrong sign: the minimiser subtracts twice each extended term, which is right for the logarithm of a density such as
    GaussianConstraint's, but LASSO returns a positive penalty, so that larger couplings are rewarded, without bound. *)
Theorem C86_lasso_refuted : exists (coefs norms : list R -> list (cplx R)) (fcn : list R -> R) (lambda : R), 0 < lambda /\ (forall v v', fcn v = fcn v') /\
  forall bound, exists x r, 0 < x /\ objective coefs norms fcn [Lasso lambda] 0 [x] = Ok r /\ r < bound.
Proof.
  exists (fun v => [(nth 0 v 0, 0)]), (fun _ => [(1, 0)]), (fun _ => 0), 1. split; [lra|]. split; [reflexivity|]. intro b. exists (1 + Rabs b). eexists. split; [pose proof (Rabs_pos b); lra|]. split; [cbn; reflexivity|].
  pose proof (Rabs_pos b). replace (((1 + Rabs b) * (1 + Rabs b) + 0 * 0) * 1) with ((1 + Rabs b) * (1 + Rabs b)) by ring. rewrite sqrt_square by lra. pose proof (Rle_abs (- b)). rewrite Rabs_Ropp in *. lra.
Qed.
Print Assumptions C86_lasso_refuted.

(** So has the constraint on a ratio of partial widths: the value is lower away from the ratio that is asked for than at it. *)
Theorem C86_width_refuted : exists (coefs norms : list R -> list (cplx R)) (fcn : list R -> R) (weight ratio : R) (x x' : R), 0 < weight /\ (forall v v', fcn v = fcn v') /\
  width coefs norms [x] [1%nat] = Ok (ratio * 1) /\ width coefs norms [x] [0%nat] = Ok 1 /\ width coefs norms [x'] [1%nat] <> width coefs norms [x] [1%nat] /\
  width coefs norms [x'] [0%nat] = Ok 1 /\
  exists r r', objective coefs norms fcn [PartialWidth [1%nat] [0%nat] weight ratio] 0 [x] = Ok r /\ objective coefs norms fcn [PartialWidth [1%nat] [0%nat] weight ratio] 0 [x'] = Ok r' /\ r' < r.
Proof.
  exists (fun v => [(1, 0); (nth 0 v 0, 0)]), (fun _ => [(1, 0); (0, 0); (0, 0); (1, 0)]), (fun _ => 0), 1, 4, 2, 3. split; [lra|]. split; [reflexivity|]. cbn.
  split; [f_equal; lra|]. split; [f_equal; lra|]. split; [intro H; injection H as H; lra|]. split; [f_equal; lra|]. exists 0, (-50). split; [f_equal; field; lra|]. split; [f_equal; field; lra|]. lra.
Qed.
Print Assumptions C86_width_refuted.

(** What the constraint on partial widths takes for the intensity of a group of amplitudes has half of the interference between them: the
    integrals below the diagonal are never computed and stay zero. *)
Theorem C86_width_partial : forall (coefs norms : list R -> list (cplx R)) (v : list R) (N : nat -> nat -> cplx R) (is : list nat),
  upper_only (List.length (coefs v)) (norms v) N -> (forall i j, N j i = cconj RS (N i j)) -> NoDup is -> (forall i, In i is -> (i < List.length (coefs v))%nat) ->
  let g i := nth i (coefs v) (c0 RS) in
  width coefs norms v is = Ok ((intensity g N is + no_interference g N is) / 2) /\
  (intensity g N is = no_interference g N is -> width coefs norms v is = Ok (intensity g N is)).
Proof.
  intros coefs norms v N is H He ND Hi g. assert (W := width_ok coefs norms v N is H He ND Hi). cbv zeta in W. fold g in W. split; [exact W|]. intro E. rewrite W, <- E. f_equal. lra.
Qed.
Print Assumptions C86_width_partial.
Definition ones : list (cplx R) := [(1, 0); (1, 0); (0, 0); (1, 0)].
Lemma ones_upper : upper_only 2 ones (fun _ _ => (1, 0)).
Proof. split; [reflexivity|]. intros [|[|i]] [|[|j]] Hi Hj; try lia; reflexivity. Qed.
Example C86_width_example : upper_only 2 ones (fun _ _ => (1, 0)) /\ ((1, 0) : cplx R) = cconj RS (1, 0) /\ NoDup [1%nat; 0%nat].
Proof. split; [exact ones_upper|]. split; [apply ceq; cbn; ring|]. apply NoDup_cons; [intros [H|[]]; discriminate|apply NoDup_cons; [intros []|constructor]]. Qed.
(** Two equal amplitudes: their intensity is 4 times that of one of them; the constraint takes it for 3 times. *)
Theorem C86_interference_refuted : exists (coefs norms : list R -> list (cplx R)) (N : nat -> nat -> cplx R) (v : list R) (num den : list nat),
  upper_only (List.length (coefs v)) (norms v) N /\ let g i := nth i (coefs v) (c0 RS) in
  intensity g N num / intensity g N den = 4 /\ extend coefs norms v (PartialWidth num den 1 4) = Ok 1.
Proof.
  exists (fun _ => [(1, 0); (1, 0)]), (fun _ => ones), (fun _ _ => (1, 0)), [], [0%nat; 1%nat], [0%nat]. split; [exact ones_upper|]. cbv zeta. unfold intensity. cbn. split; [field|]. f_equal. field.
Qed.
Print Assumptions C86_interference_refuted.

(** The value reported for a fit, and the one that is scanned, is not that which was minimised: it leaves out the constraints. Of two points the one
    with the lower reported value can be the worse one. *)
Theorem C86_reported_refuted : exists (coefs norms : list R -> list (cplx R)) (fcn : list R -> R) (cs : list (nat * R * R)) (x y rx ry : R),
  objective coefs norms fcn (to_terms cs) 0 [x] = Ok rx /\ objective coefs norms fcn (to_terms cs) 0 [y] = Ok ry /\ rx < ry /\ FCN fcn [y] < FCN fcn [x].
Proof.
  exists (fun _ => []), (fun _ => []), (fun v => nth 0 v 0), [(0%nat, 3, 1)], 3, 1, 3, 5. cbn. split; [f_equal; lra|]. split; [f_equal; field|]. lra.
Qed.
Print Assumptions C86_reported_refuted.

(** ** C87 *)
(** After a fit the floating parameters have the best values and their errors, whatever points were tried; nothing else has changed. *)
Theorem C87_fit : forall (mapping : list nat) (a : answer) (ps : list par),
  floating mapping ps -> points (List.length mapping) (trace a) -> List.length (best a) = List.length mapping -> List.length (errors a) = List.length mapping ->
  exists ps', doFit mapping a None ps = Ok ps' /\ List.length ps' = List.length ps /\
    (forall k, ~ In k mapping -> nth_error ps' k = nth_error ps k) /\
    forall i k x e p, nth_error mapping i = Some k -> nth_error (best a) i = Some x -> nth_error (errors a) i = Some e -> nth_error ps k = Some p ->
      exists p', nth_error ps' k = Some p' /\ mean R p' = x /\ err R p' = e /\ errNeg R p' = e /\ errPos R p' = e /\ same_setup p p'.
Proof.
  intros mapping a ps F Pt Lb Le. destruct (fit_ok mapping a ps F Pt Lb Le) as (ps' & E & L & I & O). exists ps'. split; [exact E|]. split; [exact L|]. split; [exact O|].
  intros i k x e p Hk Hx He Hp. exists (setResult x e e e p). split; [now rewrite (I i k x e Hk Hx He), Hp|]. repeat split.
Qed.
Print Assumptions C87_fit.
Definition p0 (s : str) (f : Z) (m : R) : par := mkParam R 0 (-9999) s f m 1 0 0.
Definition three : list par := [p0 (S_ "m") Free 1; p0 (S_ "c") Fix 2; p0 (S_ "w") Free 3].
Example C87_fit_example : floating [0%nat; 2%nat] three /\ points 2 [[1; 3]; [2; 3]; [2; 5]].
Proof.
  split; [split; [apply NoDup_cons; [intros [H|[]]; discriminate|apply NoDup_cons; [intros []|constructor]]|intros k [<-|[<-|[]]]; cbn; lia]|].
  intros x [<-|[<-|[<-|[]]]]; reflexivity.
Qed.

(** With MINOS run by the fit: the asymmetric errors are those found, but the values are those of the last point that was tried. *)
Theorem C87_run_minos_partial : forall (mapping : list nat) (a : answer) (l : list interval) (ps : list par),
  floating mapping ps -> points (List.length mapping) (trace a) -> List.length (best a) = List.length mapping -> List.length (errors a) = List.length mapping ->
  List.length l = List.length mapping -> points (List.length mapping) (flat_map tried l) ->
  exists ps', doFit mapping a (Some l) ps = Ok ps' /\ List.length ps' = List.length ps /\
    (forall k, ~ In k mapping -> nth_error ps' k = nth_error ps k) /\
    forall i k x e b p, nth_error mapping i = Some k -> nth_error (last (flat_map tried l) (best a)) i = Some x -> nth_error (errors a) i = Some e -> nth_error l i = Some b ->
      nth_error ps k = Some p ->
      exists p', nth_error ps' k = Some p' /\ mean R p' = x /\ err R p' = e /\ errNeg R p' = low b /\ errPos R p' = high b /\ same_setup p p'.
Proof.
  intros mapping a l ps F Pt Lb Le Ll Pl. destruct (fit_ok mapping a ps F Pt Lb Le) as (p1 & E & L1 & I1 & O1).
  assert (M : moved mapping (best a) p1 p1).
  { split; [reflexivity|]. split; [|reflexivity]. intros i k v Hk Hv. destruct (nth_some_len (errors a) mapping i k Le Hk) as (e & He). rewrite (I1 i k v e Hk Hv He). destruct (nth_error ps k); reflexivity. }
  destruct (run_minos_ok mapping mapping [] l p1 (best a) eq_refl (proj1 F)) as (p2 & E2 & L2 & H2).
  - intros k Hk. rewrite L1. exact (proj2 F k Hk).
  - exact Ll.
  - intros x [<-|Hx]; [exact Lb|now apply Pl].
  - destruct (H2 M) as (A & _ & D). exists p2. unfold doFit in *. destruct (visit mapping (trace a) ps) as [q| | |]; try discriminate. cbn [bind] in *.
    destruct (results mapping (best a) (errors a) q) as [q'| | |]; try discriminate. cbn [bind] in *. injection E as ->. split; [exact E2|]. split; [congruence|].
    split; [intros k Hk; rewrite D, O1 by assumption; reflexivity|]. intros i k x e b p Hk Hx He Hb Hp.
    destruct (nth_some_len (best a) mapping i k Lb Hk) as (u & Hu).
    assert (Hp1 : nth_error p1 k = Some (setResult u e e e p)) by (rewrite (I1 i k u e Hk Hu He), Hp; reflexivity).
    pose proof (A i k x b (setResult u e e e p) Hk Hb Hk Hx Hp1) as R2. eexists. split; [exact R2|]. repeat split.
Qed.
Print Assumptions C87_run_minos_partial.
Definition tries : list interval := [Interval [[1; 5]; [3; 5]] (-1) 1; Interval [[2; 4]; [2; 6]] (-1) 1].
Definition found : answer := Answer [[1; 3]; [2; 5]] [2; 5] [1; 1].
Example C87_run_minos_example : points 2 (flat_map tried tries) /\ last (flat_map tried tries) (best found) = [2; 6].
Proof. split; [intros x [<-|[<-|[<-|[<-|[]]]]]; reflexivity|reflexivity]. Qed.
(** Minimiser::RunMinos: a fit whose minimum is at (2, 5) with errors of 1 leaves the second parameter at 6, one error away, since the function was
    last evaluated there; the result, fit fractions and plots that follow are made there. *)
Theorem C87_run_minos_refuted : exists (mapping : list nat) (a : answer) (l : list interval) (ps ps' : list par),
  floating mapping ps /\ doFit mapping a (Some l) ps = Ok ps' /\ best a = [2; 5] /\ values ps' = [2; 2; 6].
Proof. exists [0%nat; 2%nat], found, tries, three. eexists. split; [exact (proj1 C87_fit_example)|]. split; [reflexivity|]. split; reflexivity. Qed.
Print Assumptions C87_run_minos_refuted.

(** minos() for one parameter changes its two errors only, and only when its one-error interval is inside the limits, if there are any. *)
Theorem C87_minos : forall (mapping : list nat) (k i : nat) (a : interval) (ps : list par) (p : par),
  floating mapping ps -> nth_error mapping i = Some k -> nth_error ps k = Some p -> points (List.length mapping) (tried a) ->
  let X := map (fun k => nth k (values ps) 0) mapping in
  exists ps', minos mapping k X a ps = Ok ps' /\ List.length ps' = List.length ps /\ (forall j, j <> k -> nth_error ps' j = nth_error ps j) /\
    exists p', nth_error ps' k = Some p' /\ mean R p' = mean R p /\ err R p' = err R p /\ same_setup p p' /\
      (p' = p \/ errNeg R p' = low a /\ errPos R p' = high a) /\
      ((minInit R p = 0 /\ maxInit R p = 0 \/ minInit R p <= mean R p - err R p /\ mean R p + err R p <= maxInit R p) -> errNeg R p' = low a /\ errPos R p' = high a).
Proof.
  intros mapping k i a ps p F Hk Hp Pt X.
  assert (EX : X = here mapping ps).
  { unfold X, here, values. apply map_ext_in. intros j Hj. destruct (nth_error ps j) as [q|] eqn:E; [|apply nth_error_None in E; specialize (proj2 F j Hj); lia].
    apply nth_error_nth. now rewrite nth_error_map, E. }
  destruct (minos_ok mapping k i X a ps p F Hk Hp Pt EX) as (ps' & E & L & O & [D|D] & Lim); exists ps'; (split; [exact E|]; split; [exact L|]; split; [exact O|]).
  - exists p. split; [exact D|]. split; [reflexivity|]. split; [reflexivity|]. split; [repeat split|]. split; [now left|]. intro H. specialize (Lim H). rewrite D in Lim. injection Lim as Lim. rewrite Lim. split; reflexivity.
  - eexists. split; [exact D|]. repeat split; try reflexivity. right. split; reflexivity.
Qed.
Print Assumptions C87_minos.
Example C87_minos_example : floating [0%nat; 2%nat] three /\ nth_error [0%nat; 2%nat] 1 = Some 2%nat /\ map (fun k => nth k (values three) 0) [0%nat; 2%nat] = [1; 3].
Proof. split; [exact (proj1 C87_fit_example)|]. split; reflexivity. Qed.

(** A scan gives the value of the function at each point of the range, all other parameters as they are, and then restores the parameter. *)
Theorem C87_scan : forall (fcn : list R -> R) (k : nat) (offset min max step : R) (N : nat) (ps : list par),
  (k < List.length ps)%nat -> (forall i, (i < N)%nat -> min + INR i * step < max) -> max <= min + INR N * step ->
  exists bound, forall fuel, (bound <= fuel)%nat ->
    scan fcn fuel k offset min max step ps = Ok (ps, map (fun i => let sv := min + INR i * step in (sv, fcn (replaced k (sv - offset) (values ps)))) (seq 0 N)).
Proof. intros fcn k offset min max step N ps Hk Hi Hm. exists N. intros fuel Hf. now apply scan_ok. Qed.
Print Assumptions C87_scan.
(** There is such a number of points whenever the step is positive. *)
Theorem C87_scan_ends : forall (min max step : R), 0 < step -> exists N, (forall i, (i < N)%nat -> min + INR i * step < max) /\ max <= min + INR N * step.
Proof.
  intros min max step Hs. destruct (archimed ((max - min) / step)) as [A _]. set (M := Z.to_nat (up ((max - min) / step))).
  assert (B : max <= min + INR M * step).
  { assert (Q : (max - min) / step <= INR M) by (unfold M; rewrite INR_IZR_INZ; apply Rle_trans with (IZR (up ((max - min) / step))); [lra|apply IZR_le; lia]).
    apply Rmult_le_compat_r with (r := step) in Q; [|lra]. unfold Rdiv in Q. rewrite Rmult_assoc, Rinv_l in Q by lra. lra. }
  clearbody M. clear A. induction M as [|M IH]; [exists 0%nat; split; [lia|exact B]|]. destruct (Rle_dec max (min + INR M * step)) as [Q|Q]; [now apply IH|].
  exists (S M). split; [|exact B]. intros i Hi. apply Rle_lt_trans with (min + INR M * step); [|lra]. apply Rplus_le_compat_l, Rmult_le_compat_r; [lra|]. apply le_INR. lia.
Qed.
Print Assumptions C87_scan_ends.
Example C87_scan_example : (forall i, (i < 3)%nat -> 0 + INR i * 2 < 5) /\ 5 <= 0 + INR 3 * 2.
Proof. split; [|cbn; lra]. intros [|[|[|i]]] H; cbn; try lra; lia. Qed.
(** A scan with a step that is not positive never ends. *)
Theorem C87_scan_refuted : exists (k : nat) (min max step : R) (ps : list par), (k < List.length ps)%nat /\ forall fcn fuel offset, scan fcn fuel k offset min max step ps = OutOfFuel.
Proof.
  exists 0%nat, 1, 2, 0, three. split; [cbn; lia|]. intros fcn fuel offset. unfold scan. cbn [nth_error three of_opt bind]. now rewrite scan_forever by (cbn; lra || lia).
Qed.
Print Assumptions C87_scan_refuted.

(** gradientTest changes no parameter, and prints the central differences about the initial values; for a function that is quadratic in the
    parameter that is its derivative there. *)
Theorem C87_gradient : forall (fcn : list R -> R) (mapping : list nat) (ps : list par), (forall k, In k mapping -> (k < List.length ps)%nat) ->
  exists out, gradientTest fcn mapping ps [] = Ok (ps, out) /\ List.length out = List.length mapping /\
  forall i k p, nth_error mapping i = Some k -> nth_error ps k = Some p ->
    (stepInit R p = 0 -> nth_error out i = Some None) /\
    (stepInit R p <> 0 -> forall a b c, (forall x, fcn (replaced k x (values ps)) = a + b * x + c * x ^ 2) -> nth_error out i = Some (Some (b + 2 * c * meanInit R p))).
Proof.
  intros fcn mapping ps H. eexists. split; [exact (gradient_ok fcn mapping ps [] H)|]. cbn [app]. rewrite map_length. split; [reflexivity|]. intros i k p Hk Hp. rewrite nth_error_map, Hk. cbn [option_map]. rewrite Hp. unfold zerob.
  split; intro Hs; destruct (Req_EM_T (stepInit R p) 0) as [Z|Z]; try contradiction; [reflexivity|]. intros a b c Hq. rewrite !Hq. do 2 f_equal. now field.
Qed.
Print Assumptions C87_gradient.
Example C87_gradient_example : (forall k, In k [2%nat] -> (k < List.length three)%nat) /\ stepInit R (p0 (S_ "w") Free 3) <> 0 /\
  (forall x, (fun v => nth 2 v 0 ^ 2) (replaced 2 x (values three)) = 0 + 0 * x + 1 * x ^ 2).
Proof. split; [intros k [<-|[]]; cbn; lia|]. split; [cbn; lra|]. intro x. cbn. ring. Qed.
