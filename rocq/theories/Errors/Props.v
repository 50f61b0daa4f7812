From Coq Require Import Reals Lra.
From Verif.Errors Require Import Model Spec Sums Merge Proofs Combine.

(** Merging adds the covariances, for any two names; the parameters are those of the first, then those of the second with a
    name the first does not have. *)
Theorem C59_merge : forall p p2, wf p -> wf p2 -> exists q, add p p2 = Ok q /\ wf q /\ params q = params p ++ filter (fun x => negb (in_names p x)) (params p2) /\
  forall a b, covariance q a b = (covariance p a b + covariance p2 a b)%R.
Proof. exact merge. Qed.
Print Assumptions C59_merge.

(** Made from parameters alone: each free parameter has the square of its error as variance, and nothing is correlated. *)
Theorem C59_diagonal : forall ps, wf (diagonal ps) /\ forall a b, covariance (diagonal ps) a b =
  over ps (fun q => let '(x, free, err) := q in if free && str_eqb (pname x) a && str_eqb (pname x) b then (err * err)%R else 0%R).
Proof. exact diagonal_ok. Qed.
Print Assumptions C59_diagonal.
Example C59_diagonal_example : covariance (diagonal [(Param (S_ "a") 0, true, 3%R); (Param (S_ "b") 1, false, 5%R)]) (S_ "a") (S_ "a") = 9%R.
Proof. rewrite (proj2 (C59_diagonal _)). cbn. ring. Qed.

(** After a reset, what is added is what there is. *)
Theorem C59_reset : forall p p2, wf p2 -> params p2 <> [] -> exists q, add (reset p) p2 = Ok q /\ wf q /\ params q = params p2 /\ forall i j, i < size p2 -> j < size p2 -> entry (cov q) i j = entry (cov p2) i j.
Proof. exact reset_add. Qed.
Print Assumptions C59_reset.

(** Computing errors, covariances, correlations and combinations leaves all parameters as they were; on the way functions
    are evaluated with at most one parameter changed, and the last evaluation for an error is with none. *)
Theorem C59_restores : forall p s, wf p -> valid p s ->
  (forall f, exists v log, getError p f s = Ok (v, s, log) /\ Forall (fun s' => s' = s \/ near p s s') log /\ last log s = s) /\
  (forall f RANK, exists v log, getVectorError p f RANK s = Ok (v, s, log) /\ Forall (fun s' => s' = s \/ near p s s') log /\ last log [] = s) /\
  (forall fs, exists v log, covarianceMatrix p fs s = Ok (v, s, log) /\ Forall (fun s' => s' = s \/ near p s s') log) /\
  (forall fs, exists v log, correlationMatrix p fs s = Ok (v, s, log)) /\
  (forall inverse fs, exists v log, combinationWeights p inverse fs s = Ok (v, s, log)) /\
  (forall inverse fs, exists v log, combinationCovWeighted p inverse fs s = Ok (v, s, log)).
Proof.
  intros p s W V. split; [|split; [|split; [|split; [|split]]]].
  - intro f. destruct (getError_ok p s V W f) as (log & H & F & L). eauto.
  - intros f RANK. destruct (getVectorError_ok p s V W f RANK) as (log & H & F & L). eauto.
  - intro fs. destruct (covariance_ok p s V W fs) as (C & log & H & F & _). eauto.
  - intro fs. unfold correlationMatrix. destruct (covariance_ok p s V W fs) as (C & log & -> & F & _). cbn [bind]. eauto.
  - intros inv fs. unfold combinationWeights. destruct (covariance_ok p s V W fs) as (C & log & -> & F & _). cbn [bind]. eauto.
  - intros inv fs. unfold combinationCovWeighted. destruct (covariance_ok p s V W fs) as (C & log & -> & F & _). cbn [bind]. destruct (all_some _ C); eauto.
Qed.
Print Assumptions C59_restores.

(** The error of an affine function is the square root of the quadratic form of its coefficients. *)
Theorem C59_linear : forall p f c w vs, wf p -> valid p (map Some vs) -> (forall i, i < size p -> (0 < entry (cov p) i i)%R) -> affine f c w ->
  (0 <= form (size p) (entry (cov p)) (slope p w) (slope p w))%R ->
  exists log, getError p f (map Some vs) = Ok (Some (sqrt (form (size p) (entry (cov p)) (slope p w) (slope p w))), map Some vs, log).
Proof.
  intros p f c w vs W V P A Q. destruct (getError_ok p _ V W f) as (log & H & _). exists log. rewrite H, (quadratic_some p (size p) _ (slope p w)).
  - unfold sqrt_. destruct (Rlt_dec _ 0); [lra|reflexivity].
  - intros i L. apply (D_affine p f c w); auto.
Qed.
Print Assumptions C59_linear.

(** Scaling a function scales its error; adding a constant does not change it. *)
Theorem C59_scale : forall p f k c s, wf p -> valid p s -> (k <> 0)%R ->
  exists v log log', getError p f s = Ok (v, s, log) /\ getError p (fun s => add_ (mul_ (Some k) (f s)) (Some c)) s = Ok (mul_ (Some (Rabs k)) v, s, log').
Proof.
  intros p f k c s W V N. destruct (getError_ok p s V W f) as (log & H & _). destruct (getError_ok p s V W (fun s => add_ (mul_ (Some k) (f s)) (Some c))) as (log' & H' & _).
  do 3 eexists. split; [exact H|]. rewrite H'. now rewrite (error_scale p s f k c N).
Qed.
Print Assumptions C59_scale.

(** The errors of a function with several values are those of its components. *)
Theorem C59_vector : forall p f RANK s, wf p -> valid p s -> exists es log, getVectorError p f RANK s = Ok (es, s, log) /\ List.length es = RANK /\
  forall j, j < RANK -> exists log', getError p (fun s => f s j) s = Ok (nth j es None, s, log').
Proof.
  intros p f RANK s W V. destruct (getVectorError_ok p s V W f RANK) as (log & H & _). do 2 eexists. split; [exact H|]. split; [now rewrite map_length, seq_length|].
  intros j L. destruct (getError_ok p s V W (fun s => f s j)) as (log' & H' & _). exists log'. rewrite H'. f_equal. f_equal. f_equal. symmetry.
  exact (nth_map_seq (fun j => sqrt_ (quadratic p (size p) (D p (fun s => f s j) s) (D p (fun s => f s j) s))) RANK j None L).
Qed.
Print Assumptions C59_vector.

(** The covariance matrix is symmetric, has the squares of the errors on its diagonal, and for affine functions is the
    bilinear form of their coefficients. *)
Theorem C59_covariance : forall p fs s, wf p -> valid p s -> symmetric (size p) (entry (cov p)) -> exists C log, covarianceMatrix p fs s = Ok (C, s, log) /\
  forall i j, i < List.length fs -> j < List.length fs -> C i j = C j i /\
  (exists v log', getError p (nth i fs (fun _ => None)) s = Ok (v, s, log') /\ forall e, v = Some e -> C i i = Some (e * e)%R) /\
  (forall c c' w w' vs, s = map Some vs -> (forall i, i < size p -> (0 < entry (cov p) i i)%R) -> affine (nth i fs (fun _ => None)) c w -> affine (nth j fs (fun _ => None)) c' w' ->
    C i j = Some (form (size p) (entry (cov p)) (slope p w) (slope p w'))).
Proof.
  intros p fs s W V Sy. destruct (covariance_ok p s V W fs) as (C & log & H & F & G). exists C, log. split; [exact H|]. intros i j Li Lj. rewrite !G by assumption. split; [now apply E_sym|]. split.
  - destruct (getError_ok p s V W (nth i fs no_function)) as (log' & H' & _). do 2 eexists. split; [exact H'|]. intros e Ee.
    destruct (all_or_none (size p) (D p (nth i fs no_function) s)) as [(x & X)|(k & L & N)].
    + rewrite (E_some p s fs i i x x X X). rewrite (quadratic_some p (size p) _ x X) in Ee. unfold sqrt_ in Ee. destruct (Rlt_dec _ 0) as [|Q]; [discriminate|]. injection Ee as <-. f_equal. rewrite sqrt_sqrt; lra.
    + rewrite (quadratic_none p (size p) _ k L N) in Ee. discriminate.
  - intros c c' w w' vs -> P A A'. apply E_some; intros k L; [apply (D_affine p _ c w)|apply (D_affine p _ c' w')]; auto.
Qed.
Print Assumptions C59_covariance.

(** Correlations lie between -1 and 1, and are 1 on the diagonal. *)
Theorem C59_correlation : forall p fs s, wf p -> valid p s -> symmetric (size p) (entry (cov p)) -> nonnegative (size p) (entry (cov p)) -> exists rho log, correlationMatrix p fs s = Ok (rho, s, log) /\
  forall i j, i < List.length fs -> j < List.length fs -> (forall r, rho i j = Some r -> (-1 <= r <= 1)%R) /\ rho i j = rho j i /\ (forall r, rho i i = Some r -> r = 1%R).
Proof. intros p fs s W V Sy P. destruct (correlation_ok p s V W Sy fs P) as (rho & log & H & _ & G). eauto. Qed.
Print Assumptions C59_correlation.

(** The weights of a combination sum to one; no other weights that do have a smaller variance; the value and error reported
    for the combination are those with these weights, and the functions are evaluated last with the original parameters. *)
Theorem C59_weights : forall p inverse fs s C log c, wf p -> valid p s -> symmetric (size p) (entry (cov p)) -> covarianceMatrix p fs s = Ok (C, s, log) -> 0 < List.length fs ->
  (forall i j, i < List.length fs -> j < List.length fs -> C i j = Some (c i j)) -> positive (List.length fs) c ->
  (forall A, (forall i j, i < List.length fs -> j < List.length fs -> A i j = c i j) -> right_inverse (List.length fs) c (inverse (List.length fs) A)) ->
  exists W log pred log' u, combinationWeights p inverse fs s = Ok (W, s, log) /\ (forall i, i < List.length fs -> W i = Some (u i)) /\ over (upto (List.length fs)) u = 1%R /\
    (forall v, over (upto (List.length fs)) v = 1%R -> (form (List.length fs) c u u <= form (List.length fs) c v v)%R) /\
    combinationCovWeighted p inverse fs s = Ok ((pred, Some (sqrt (form (List.length fs) c u u))), s, log') /\
    (forall x, (forall i, i < List.length fs -> nth i fs (fun _ => None) s = Some (x i)) -> pred = Some (over (upto (List.length fs)) (fun i => u i * x i)%R)) /\ last log' [] = s.
Proof.
  intros p inverse fs s C log c W V Sy H N Hc P I. apply combination_ok; auto. destruct (covariance_ok p s V W fs) as (C' & log' & H' & _ & G). rewrite H in H'. injection H' as <- <-. intros i j Li Lj. rewrite <- G by assumption. now apply Hc.
Qed.
Print Assumptions C59_weights.

(** *** Two correlated parameters *)
Definition linear (c : R) (w : nat -> R) : store -> num := fun s => add_ (Some c) (sum_ (List.length s) (fun a => mul_ (Some (w a)) (nth a s None))).
Lemma linear_affine c w : affine (linear c w) c w.
Proof.
  intro vs. unfold linear. rewrite map_length, (sum_some _ _ (fun a => w a * nth a vs 0)%R); [reflexivity|]. intros a L.
  rewrite (nth_indep _ None (Some 0%R)) by now rewrite map_length. now rewrite (map_nth Some vs 0%R a).
Qed.
Definition c2 (i j : nat) : R := match i, j with 0, 0 => 4 | 1, 1 => 9 | _, _ => 1 end%R.
Definition pa := Param (S_ "a") 0. Definition pb := Param (S_ "b") 1. Definition pc := Param (S_ "c") 2.
Definition p_ab : propagator := Prop_ (Matrix 2 c2) [pa; pb].
Definition p_bc : propagator := Prop_ (Matrix 2 c2) [pb; pc].
Definition s0 : store := map Some [1; 2; 3]%R.
Example C59_merge_example : wf p_ab /\ wf p_bc /\ covariance p_ab (S_ "b") (S_ "b") = 9%R /\ covariance p_bc (S_ "b") (S_ "b") = 4%R /\
  (exists q, add p_ab p_bc = Ok q /\ params q = [pa; pb; pc] /\ entry (cov q) 1 1 = (9 + 4)%R).
Proof.
  split; [reflexivity|]. split; [reflexivity|]. split; [unfold covariance; cbn; ring|]. split; [unfold covariance; cbn; ring|]. eexists. split; [reflexivity|]. split; [reflexivity|]. cbn. ring.
Qed.
Example C59_reset_example : wf p_bc /\ params p_bc <> [] /\ ~ wf (reset p_ab).
Proof. split; [reflexivity|]. split; discriminate. Qed.
Example C59_restores_example : wf p_ab /\ valid p_ab s0.
Proof. split; [reflexivity|]. intros q [<- | [<- | []]]; cbn; lia. Qed.
(** 2 a - b: 16 - 4 + 9 *)
Example C59_linear_example : exists log, getError p_ab (linear 5 (fun a => match a with 0 => 2 | 1 => -1 | _ => 7 end)%R) s0 = Ok (Some (sqrt 21), s0, log).
Proof.
  pose (w := fun a : nat => match a with 0 => 2 | 1 => -1 | _ => 7 end%R). destruct (C59_linear p_ab (linear 5 w) 5 w [1; 2; 3]%R) as (log & H).
  - reflexivity.
  - apply C59_restores_example.
  - intros [|[|i]] L; cbn in *; [lra|lra|lia].
  - apply linear_affine.
  - unfold form, slope. cbn. lra.
  - exists log. assert (Q : form (size p_ab) (entry (cov p_ab)) (slope p_ab w) (slope p_ab w) = 21%R) by (unfold form, slope; cbn; ring). rewrite Q in H. exact H.
Qed.
Example C59_scale_example : (-2 <> 0)%R /\ Rabs (-2) = 2%R.
Proof. split; [lra|]. rewrite Rabs_left; lra. Qed.
Example C59_vector_example : wf p_ab /\ valid p_ab s0 /\ forall j, affine (fun s => linear 0 (fun a => INR (a + j)) s) 0 (fun a => INR (a + j)).
Proof. split; [reflexivity|]. split; [apply C59_restores_example|]. intro j. apply linear_affine. Qed.
Lemma c2_form x : form 2 c2 x x = (4 * (x 0%nat * x 0%nat) + 2 * (x 0%nat * x 1%nat) + 9 * (x 1%nat * x 1%nat))%R.
Proof. unfold form. cbn. ring. Qed.
Example C59_covariance_example : symmetric (size p_ab) (entry (cov p_ab)) /\ nonnegative (size p_ab) (entry (cov p_ab)).
Proof. split; [intros [|[|i]] [|[|j]] _ _; reflexivity|]. intro x. change (size p_ab) with 2. change (entry (cov p_ab)) with c2. rewrite c2_form. nra. Qed.
Example C59_correlation_example : exists rho log, correlationMatrix p_ab [linear 0 (fun a => match a with 0 => 1 | _ => 0 end)%R; linear 0 (fun a => match a with 1 => 1 | _ => 0 end)%R] s0 = Ok (rho, s0, log) /\
  forall i j, i < 2 -> j < 2 -> (forall r, rho i j = Some r -> (-1 <= r <= 1)%R).
Proof.
  destruct C59_covariance_example as [Sy P]. destruct (C59_correlation p_ab [linear 0 (fun a => match a with 0 => 1 | _ => 0 end)%R; linear 0 (fun a => match a with 1 => 1 | _ => 0 end)%R] s0 eq_refl (proj2 C59_restores_example) Sy P) as (rho & log & H & G).
  exists rho, log. split; [exact H|]. intros i j Li Lj. now apply G.
Qed.
(** two estimators with the covariance of the parameters: weights 8/11 and 3/11 *)
Definition inv2 (n : nat) (A : nat -> nat -> R) (i j : nat) : R :=
  let det := (A 0%nat 0%nat * A 1%nat 1%nat - A 0%nat 1%nat * A 1%nat 0%nat)%R in
  match i, j with 0, 0 => A 1%nat 1%nat / det | 1, 1 => A 0%nat 0%nat / det | 0, _ => - A 0%nat 1%nat / det | _, _ => - A 1%nat 0%nat / det end%R.
Example C59_weights_example : exists fs C log, List.length fs = 2 /\ covarianceMatrix p_ab fs s0 = Ok (C, s0, log) /\ (forall i j, i < 2 -> j < 2 -> C i j = Some (c2 i j)) /\ positive 2 c2 /\
  (forall A, (forall i j, i < 2 -> j < 2 -> A i j = c2 i j) -> right_inverse 2 c2 (inv2 2 A)) /\ over (upto 2) (inv2 2 c2 0) = (8 / 35)%R /\ over (upto 2) (inv2 2 c2 1) = (3 / 35)%R.
Proof.
  pose (e := fun i a : nat => if Nat.eqb a i then 1%R else 0%R). exists [linear 0 (e 0); linear 0 (e 1)].
  destruct (C59_covariance p_ab [linear 0 (e 0); linear 0 (e 1)] s0 eq_refl (proj2 C59_restores_example) (proj1 C59_covariance_example)) as (C & log & H & G). exists C, log.
  split; [reflexivity|]. split; [exact H|]. split; [|split; [|split; [|split]]].
  - intros i j Li Lj. destruct (G i j Li Lj) as (_ & _ & K). rewrite (K 0%R 0%R (e i) (e j) [1; 2; 3]%R).
    + f_equal. destruct i as [|[|i]], j as [|[|j]]; try lia; unfold form, slope, e; cbn; ring.
    + reflexivity.
    + intros [|[|k]] L; cbn in *; [lra|lra|lia].
    + destruct i as [|[|i]]; [apply linear_affine|apply linear_affine|lia].
    + destruct j as [|[|j]]; [apply linear_affine|apply linear_affine|lia].
  - intros x (i & Li & N). rewrite c2_form. destruct i as [|[|i]]; [| |lia].
    + assert (0 < x 0%nat * x 0%nat)%R by (assert (0 < x 0%nat \/ x 0%nat < 0)%R by lra; nra). nra.
    + assert (0 < x 1%nat * x 1%nat)%R by (assert (0 < x 1%nat \/ x 1%nat < 0)%R by lra; nra). nra.
  - intros A HA i j Li Lj. unfold inv2. cbn [upto seq over]. rewrite !HA by lia. destruct i as [|[|i]], j as [|[|j]]; try lia; cbn; field.
  - cbn. field.
  - cbn. field.
Qed.

(** A reset empties the list of parameters but keeps the size of the matrix: the next error reads past the end of the list. *)
Theorem C59_reset_refuted : exists p f s, wf p /\ valid p s /\ getError (reset p) f s = UB.
Proof. exists p_ab, (linear 0 (fun _ => 0%R)), s0. split; [reflexivity|]. split; [apply C59_restores_example|reflexivity]. Qed.
Print Assumptions C59_reset_refuted.

(** The covariance matrix of functions is left with each function last evaluated at a shifted parameter: a function that
    keeps the result of its last evaluation (an amplitude with its caches) stays there, though the parameter itself is put back. *)
Theorem C59_stale_refuted : exists p f s C log, wf p /\ valid p s /\ covarianceMatrix p [f] s = Ok (C, s, log) /\ last log [] <> s.
Proof.
  exists p_ab, (linear 0 (fun _ => 0%R)), s0. do 2 eexists. split; [reflexivity|]. split; [apply C59_restores_example|]. split; [reflexivity|]. intro H. cbn in H. unfold sqrt_ in H. cbn in H.
  destruct (Rlt_dec 9 0) as [L | _]; [lra|]. injection H as H. assert (Q : sqrt 9 = 3%R) by (replace 9%R with (3 * 3)%R by ring; apply sqrt_square; lra). rewrite Q in H. lra.
Qed.
Print Assumptions C59_stale_refuted.

(** A parameter without error makes every error not-a-number, also for functions that do not depend on it. *)
Theorem C59_zero_refuted : exists p f c w vs log, wf p /\ valid p (map Some vs) /\ affine f c w /\ form (size p) (entry (cov p)) (slope p w) (slope p w) = 1%R /\ getError p f (map Some vs) = Ok (None, map Some vs, log).
Proof.
  pose (p := Prop_ (Matrix 2 (fun i j => match i, j with 1, 1 => 1 | _, _ => 0 end%R)) [pa; pb]). pose (w := fun a : nat => match a with 1 => 1 | _ => 0 end%R). exists p, (linear 0 w), 0%R, w, [1; 2; 3]%R.
  assert (V : valid p (map Some [1; 2; 3]%R)) by (intros q [<- | [<- | []]]; cbn; lia). destruct (getError_ok p _ V eq_refl (linear 0 w)) as (log & H & _). exists log.
  split; [reflexivity|]. split; [exact V|]. split; [apply linear_affine|]. split; [unfold form, slope; cbn; ring|]. rewrite H. rewrite (quadratic_none p (size p) _ 0); [reflexivity|cbn; lia|].
  unfold D. cbn. unfold sqrt_. destruct (Rlt_dec 0 0) as [L | _]; [lra|]. cbn. rewrite sqrt_0. unfold div_. destruct (Req_EM_T (2 * 0) 0) as [_ | N]; [reflexivity|]. exfalso. apply N. ring.
Qed.
Print Assumptions C59_zero_refuted.

(** Parameters are merged by name: of two parameter objects of the same name only the first is varied, and what depends on
    the second has no error. *)
Theorem C59_objects_refuted : exists p p2 q f s log log', wf p /\ wf p2 /\ add p p2 = Ok q /\ getError p2 f s = Ok (Some 1%R, s, log) /\ getError q f s = Ok (Some 0%R, s, log').
Proof.
  pose (p := Prop_ (Matrix 1 (fun _ _ => 1%R)) [pa]). pose (p2 := Prop_ (Matrix 1 (fun _ _ => 1%R)) [Param (S_ "a") 1]). pose (w := fun a : nat => match a with 1 => 1 | _ => 0 end%R). exists p, p2. eexists. exists (linear 0 w), s0.
  destruct (C59_linear p2 (linear 0 w) 0 w [1; 2; 3]%R) as (log & H).
  - reflexivity.
  - intros q [<- | []]; cbn; lia.
  - intros [|i] L; cbn in *; [lra|lia].
  - apply linear_affine.
  - unfold form, slope. cbn. lra.
  - set (q := Prop_ (Matrix 1 (fun i j => if Nat.eqb i 0 && Nat.eqb j 0 then 1 + 1 else if Nat.eqb i 0 && Nat.eqb j 0 then 1 else 1)%R) [pa]).
    destruct (C59_linear q (linear 0 w) 0 w [1; 2; 3]%R) as (log' & H').
    + reflexivity.
    + intros r [<- | []]; cbn; lia.
    + intros [|i] L; cbn in *; [lra|lia].
    + apply linear_affine.
    + unfold form, slope. cbn. lra.
    + exists log, log'. split; [reflexivity|]. split; [reflexivity|]. split; [reflexivity|]. split.
      * change s0 with (map Some [1; 2; 3]%R). assert (Q : form (size p2) (entry (cov p2)) (slope p2 w) (slope p2 w) = 1%R) by (unfold form, slope; cbn; ring). rewrite Q, sqrt_1 in H. exact H.
      * change s0 with (map Some [1; 2; 3]%R). assert (Q : form (size q) (entry (cov q)) (slope q w) (slope q w) = 0%R) by (unfold form, slope; cbn; ring). rewrite Q, sqrt_0 in H'. exact H'.
Qed.
Print Assumptions C59_objects_refuted.
