From Coq Require Import Reals Lra Lia.
From Verif.Common Require Import Prelude Writes.
From Verif.Coherent Require Import Model Spec Proofs Real.
From Verif.Minuit Require Import Model.
From Verif.Kahan Require Model Proofs.
From Verif.Fit Require Import Model Spec.
Local Open Scope R_scope.

(** *** Likelihoods *)
Section Likelihood.
  Context {Q Ev : Type} (weight : Ev -> R).
  Lemma total_mixture (q : Q) (fs : list (pdf Q Ev)) x : total Q Ev (map (prepare_pdf Q Ev q) fs) x = mixture (map density fs) q x.
  Proof.
    unfold total. assert (G : forall a, fold_left (fun prob f => prob + density f (seen f) x) (map (prepare_pdf Q Ev q) fs) a = a + mixture (map density fs) q x); [|rewrite G; ring].
    induction fs as [|f fs IH]; intro a; cbn [map fold_left mixture fold_right]; [ring|]. rewrite IH. cbn [prepare_pdf density seen]. unfold mixture. ring.
  Qed.
  Lemma filled (q : Q) (fs : list (pdf Q Ev)) l : (forall x, In x l -> 0 < mixture (map density fs) q x) ->
    all_numbers (fill_likelihood Q Ev weight (map (prepare_pdf Q Ev q) fs) l) = Some (map (fun x => weight x * ln (mixture (map density fs) q x)) l).
  Proof.
    induction l as [|x l IH]; intro H; [reflexivity|]. cbn [fill_likelihood map all_numbers]. rewrite total_mixture. unfold log_ at 1. destruct (Rlt_dec _ _) as [_|N]; [|exfalso; apply N, H; now left].
    unfold fill_likelihood in IH. rewrite IH by (intros y Hy; apply H; now right). reflexivity.
  Qed.
  Lemma likelihood_pos (ds : list (Q -> Ev -> R)) q l : 0 < likelihood weight ds q l.
  Proof. induction l as [|x l IH]; cbn; [lra|]. apply Rmult_lt_0_compat; [apply exp_pos|exact IH]. Qed.
  Lemma ln_likelihood (ds : list (Q -> Ev -> R)) q l : ln (likelihood weight ds q l) = fold_right Rplus 0 (map (fun x => weight x * ln (mixture ds q x)) l).
  Proof.
    induction l as [|x l IH]; cbn [likelihood fold_right map]; [apply ln_1|]. rewrite ln_mult; [|apply exp_pos|apply likelihood_pos]. unfold likelihood in IH. rewrite IH. unfold Rpower. now rewrite ln_exp.
  Qed.
  Lemma kahan_sum l : Kahan.Model.value (fun x => x) (Kahan.Model.adds (fun x => x) Kahan.Model.empty l) = fold_right Rplus 0 l.
  Proof. destruct (Kahan.Proofs.adds_exact l Kahan.Model.empty eq_refl) as [A B]. unfold Kahan.Model.value. rewrite A, B. cbn [Kahan.Model.sum Kahan.Model.empty]. unfold Kahan.Spec.exact. ring. Qed.
  Lemma getVal_ok (q : Q) fs l : (forall x, In x l -> 0 < mixture (map density fs) q x) -> getVal Q Ev weight q fs (Some l) = Ok (map (prepare_pdf Q Ev q) fs, Some (-2 * ln (likelihood weight (map density fs) q l))).
  Proof. intro H. unfold getVal. rewrite filled, kahan_sum, ln_likelihood by assumption. reflexivity. Qed.
End Likelihood.
Lemma simfit_sum l : simfit l = fold_right Rplus 0 l.
Proof. unfold simfit. assert (G : forall a, fold_left Rplus l a = a + fold_right Rplus 0 l); [|rewrite G; ring]. induction l as [|x l IH]; intro a; cbn [fold_left fold_right]; [ring|]. rewrite IH. ring. Qed.
Lemma simfit_product l : exp (- simfit (map (fun L => -2 * ln L) l) / 2) = product (map (fun L => exp (ln L)) l).
Proof.
  rewrite simfit_sum. induction l as [|x l IH]; cbn [map fold_right product]; [replace (- 0 / 2) with 0 by lra; apply exp_0|].
  unfold product in IH. rewrite <- IH, <- exp_plus. f_equal. lra.
Qed.

(** *** Constraints *)
Section Constraints.
  Variables coefs norms : list R -> list (cplx R).
  Lemma gauss_pos x m s : 0 < gauss x m s. Proof. apply exp_pos. Qed.
  Lemma gaussians_pos cs v : 0 < gaussians cs v.
  Proof. unfold gaussians, product. induction cs as [|[[k m] s] cs IH]; cbn; [lra|]. apply Rmult_lt_0_compat; [apply gauss_pos|exact IH]. Qed.
  Lemma constrained cs v : (forall k m s, In (k, m, s) cs -> (k < List.length v)%nat /\ s <> 0) -> forall LL,
    extend_all coefs norms (to_terms cs) v LL = Ok (LL - 2 * ln (gaussians cs v)).
  Proof.
    induction cs as [|[[k m] s] cs IH]; intros H LL; cbn [to_terms map extend_all]; [unfold gaussians; cbn; rewrite ln_1; f_equal; ring|].
    destruct (H k m s (or_introl eq_refl)) as [Hk Hs]. cbn [extend]. rewrite (nth_error_nth' v 0 Hk). cbn [of_opt bind]. unfold to_terms in IH. rewrite IH by (intros k0 m0 s0 H0; apply (H k0 m0 s0); now right). f_equal.
    unfold gaussians, product in *. cbn [map fold_right]. rewrite ln_mult; [|apply gauss_pos|apply gaussians_pos]. unfold gauss at 2. rewrite ln_exp. field. assumption.
  Qed.

  Lemma csum_delta (g : nat -> cplx R) i is : NoDup is -> In i is -> Csum_ (fun j => if (i =? j)%nat then g i else c0 RS) is = g i.
  Proof.
    intros N H. induction is as [|x is IH]; [destruct H|]. cbn [Csum_ fold_right]. inversion N as [|? ? N0 N1]; subst. fold (Csum_ (fun j => if (i =? j)%nat then g i else c0 RS) is). destruct H as [->|H].
    - rewrite Nat.eqb_refl, (csum_ext _ (fun _ => c0 RS)) by (intros y Hy; destruct (Nat.eqb_spec i y); [subst; tauto|reflexivity]). rewrite csum_0. apply ceq; cbn; ring.
    - rewrite IH by assumption. destruct (Nat.eqb_spec i x); [subst; tauto|]. apply ceq; cbn; ring.
  Qed.
  (** Half of the interference is counted. *)
  Lemma width_ok v (N : nat -> nat -> cplx R) is : upper_only (List.length (coefs v)) (norms v) N -> (forall i j, N j i = cconj RS (N i j)) ->
    NoDup is -> (forall i, In i is -> (i < List.length (coefs v))%nat) ->
    let g i := nth i (coefs v) (c0 RS) in
    width coefs norms v is = Ok ((intensity g N is + no_interference g N is) / 2).
  Proof.
    intros [Ln Un] Herm ND Hi g. set (U := fun i j => cmul RS (cmul RS (g i) (cconj RS (g j))) (if (i <=? j)%nat then N i j else c0 RS)).
    unfold width. rewrite (double_sum_ok R RS _ U).
    2:{ intros i j Ii Ij. specialize (Hi i Ii) as Li. specialize (Hi j Ij) as Lj. unfold width_term, entry. rewrite (nth_error_nth' _ (c0 RS) Li), (nth_error_nth' _ (c0 RS) Lj). cbn [of_opt bind]. rewrite Un by assumption. reflexivity. }
    cbn [bind]. f_equal. rewrite (fold_ext _ (fun a i => cadd RS a (Csum_ (U i) is))) by (intros; now rewrite fold_csum). rewrite fold_csum.
    set (F := fun i j => cmul RS (cmul RS (g i) (cconj RS (g j))) (N i j)).
    assert (E : cadd RS (Csum_ (fun i => Csum_ (U i) is) is) (cconj RS (Csum_ (fun i => Csum_ (U i) is) is)) = cadd RS (Csum_ (fun i => Csum_ (F i) is) is) (Csum_ (fun i => F i i) is)).
    { rewrite csum_conj. rewrite (csum_ext (fun x => cconj RS (Csum_ (U x) is)) (fun x => Csum_ (fun y => cconj RS (U x y)) is)) by (intros; apply csum_conj).
      rewrite (csum_swap (fun x y => cconj RS (U x y))). rewrite <- csum_add.
      rewrite (csum_ext (fun i => F i i) (fun i => Csum_ (fun j => if (i =? j)%nat then F i i else c0 RS) is)) by (intros i Ii; symmetry; apply (csum_delta (fun i => F i i) i is ND Ii)).
      rewrite <- csum_add. apply csum_ext. intros i Ii. rewrite <- !csum_add. apply csum_ext. intros j Ij. unfold U, F.
      destruct (Nat.eqb_spec i j) as [<-|Ne].
      - rewrite Nat.leb_refl. assert (Hr : snd (N i i) = 0) by (specialize (Herm i i); destruct (N i i) as [a b]; unfold cconj in Herm; cbn in Herm |- *; injection Herm as Hb; lra).
        destruct (N i i) as [a b]; cbn [snd] in Hr; subst b. destruct (g i) as [c d]. apply ceq; cbn; ring.
      - destruct (Nat.leb_spec i j) as [L|L], (Nat.leb_spec j i) as [L'|L']; try lia.
        + destruct (N i j), (g i), (g j). apply ceq; cbn; ring.
        + rewrite (Herm j i). destruct (N j i), (g i), (g j). apply ceq; cbn; ring. }
    unfold intensity, no_interference. fold g. apply (f_equal fst) in E. fold F in E |- *.
    change (fst (cadd RS (c0 RS) (Csum_ (fun i => Csum_ (U i) is) is))) with (0 + fst (Csum_ (fun i => Csum_ (U i) is) is)). unfold cadd, cconj in E. cbn [fst kadd RS] in E.
    change (Csum_ (fun i => cmul RS (cmul RS (g i) (cconj RS (g i))) (N i i)) is) with (Csum_ (fun i => F i i) is).
    change (Csum_ (fun i => Csum_ (fun j => cmul RS (cmul RS (g i) (cconj RS (g j))) (N i j)) is) is) with (Csum_ (fun i => Csum_ (F i) is) is). lra.
  Qed.
End Constraints.

(** *** Parameters *)
Lemma modify_ok f k (ps : list par) : (k < List.length ps)%nat -> exists ps', modify f k ps = Ok ps' /\ List.length ps' = List.length ps /\
  forall j, nth_error ps' j = if (j =? k)%nat then option_map f (nth_error ps j) else nth_error ps j.
Proof.
  intro H. unfold modify. destruct (nth_error ps k) as [p|] eqn:E; [|apply nth_error_None in E; lia]. cbn [of_opt bind]. destruct (set_at_Some k (f p) ps H) as (l & -> & Hl & Hn).
  exists l. split; [reflexivity|]. split; [exact Hl|]. intro j. rewrite Hn. destruct (Nat.eqb_spec j k) as [->|]; [now rewrite E|reflexivity].
Qed.
Fixpoint mods (l : list (nat * (par -> par))) (ps : list par) : res (list par) :=
  match l with [] => Ok ps | kf :: r => bind (modify (snd kf) (fst kf) ps) (mods r) end.
Lemma mods_ok l : forall ps, NoDup (map fst l) -> (forall k, In k (map fst l) -> (k < List.length ps)%nat) ->
  exists ps', mods l ps = Ok ps' /\ List.length ps' = List.length ps /\ (forall k f, In (k, f) l -> nth_error ps' k = option_map f (nth_error ps k)) /\
    forall k, ~ In k (map fst l) -> nth_error ps' k = nth_error ps k.
Proof.
  induction l as [|[k f] l IH]; intros ps ND H; [exists ps; cbn; repeat split; tauto|]. cbn [map fst] in ND, H. inversion ND as [|? ? N0 N1]; subst. cbn [mods fst snd].
  destruct (modify_ok f k ps (H k (or_introl eq_refl))) as (p1 & -> & L1 & E1). cbn [bind].
  destruct (IH p1 N1) as (p2 & E2 & L2 & In2 & Out2); [intros j Hj; rewrite L1; apply H; now right|]. exists p2. split; [exact E2|]. split; [congruence|]. split.
  - intros j g [Ej|Hj].
    + injection Ej as <- <-. rewrite Out2, E1, Nat.eqb_refl by assumption. reflexivity.
    + rewrite (In2 j g Hj), E1. destruct (Nat.eqb_spec j k) as [->|]; [exfalso; apply N0; now apply (in_map fst) in Hj|reflexivity].
  - intros j Hj. cbn [map fst In] in Hj. rewrite Out2 by tauto. rewrite E1. destruct (Nat.eqb_spec j k) as [->|]; [tauto|reflexivity].
Qed.
Lemma combine_fst {A B} (l : list A) (m : list B) : List.length l = List.length m -> map fst (combine l m) = l.
Proof. revert m. induction l as [|x l IH]; intros [|y m] H; try discriminate; [reflexivity|]. cbn. f_equal. apply IH. now injection H. Qed.
Lemma combine_at {A B} (l : list A) (m : list B) i a b : nth_error l i = Some a -> nth_error m i = Some b -> In (a, b) (combine l m).
Proof. revert m i. induction l as [|x l IH]; intros m [|i] Ha Hb; try discriminate; destruct m as [|y m]; try discriminate; cbn in *; [left; congruence|right; eauto]. Qed.

Lemma assign_mods mapping : forall xx ps, List.length xx = List.length mapping -> assign mapping xx ps = mods (combine mapping (map (setCurrentFitVal R) xx)) ps.
Proof. induction mapping as [|k m IH]; intros [|x xx] ps H; try discriminate; [reflexivity|]. cbn [assign combine map mods fst snd]. destruct (modify _ _ _); cbn [bind]; auto. Qed.
Lemma assign_ok mapping xx ps : floating mapping ps -> List.length xx = List.length mapping -> exists ps', assign mapping xx ps = Ok ps' /\ List.length ps' = List.length ps /\
  (forall i k x, nth_error mapping i = Some k -> nth_error xx i = Some x -> nth_error ps' k = option_map (setCurrentFitVal R x) (nth_error ps k)) /\
  forall k, ~ In k mapping -> nth_error ps' k = nth_error ps k.
Proof.
  intros [ND Hr] L. rewrite assign_mods by assumption. assert (Ef : map fst (combine mapping (map (setCurrentFitVal R) xx)) = mapping) by (apply combine_fst; rewrite map_length; congruence).
  destruct (mods_ok (combine mapping (map (setCurrentFitVal R) xx)) ps) as (ps' & E & L' & Hi & Ho); [now rewrite Ef|now rewrite Ef|]. exists ps'. rewrite Ef in Ho. split; [exact E|]. split; [exact L'|].
  split; [|exact Ho]. intros i k x Hk Hx. apply Hi. apply combine_at with i; [exact Hk|]. now rewrite nth_error_map, Hx.
Qed.
Lemma results_mods mapping : forall xs es ps, List.length xs = List.length mapping -> List.length es = List.length mapping ->
  results mapping xs es ps = mods (combine mapping (map (fun xe => setResult (fst xe) (snd xe) (snd xe) (snd xe)) (combine xs es))) ps.
Proof.
  induction mapping as [|k m IH]; intros [|x xs] [|e es] ps H1 H2; try discriminate; [reflexivity|]. cbn [results combine map mods fst snd]. destruct (modify _ _ _); cbn [bind]; auto.
Qed.
Lemma combine_nth_ {A B} (l : list A) (m : list B) i a b : nth_error l i = Some a -> nth_error m i = Some b -> nth_error (combine l m) i = Some (a, b).
Proof. revert m i. induction l as [|x l IH]; intros m [|i] Ha Hb; try discriminate; destruct m as [|y m]; try discriminate; cbn in *; [congruence|eauto]. Qed.
Lemma results_ok mapping xs es ps : floating mapping ps -> List.length xs = List.length mapping -> List.length es = List.length mapping ->
  exists ps', results mapping xs es ps = Ok ps' /\ List.length ps' = List.length ps /\
  (forall i k x e, nth_error mapping i = Some k -> nth_error xs i = Some x -> nth_error es i = Some e -> nth_error ps' k = option_map (setResult x e e e) (nth_error ps k)) /\
  forall k, ~ In k mapping -> nth_error ps' k = nth_error ps k.
Proof.
  intros [ND Hr] L1 L2. rewrite results_mods by assumption. set (l := map _ (combine xs es)).
  assert (Ef : map fst (combine mapping l) = mapping) by (apply combine_fst; unfold l; rewrite map_length, combine_length, L1, L2; lia).
  destruct (mods_ok (combine mapping l) ps) as (ps' & E & L' & Hi & Ho); [now rewrite Ef|now rewrite Ef|]. exists ps'. rewrite Ef in Ho. split; [exact E|]. split; [exact L'|].
  split; [|exact Ho]. intros i k x e Hk Hx He. apply Hi. apply combine_at with i; [exact Hk|]. unfold l. now rewrite nth_error_map, (combine_nth_ _ _ _ _ _ Hx He).
Qed.
Lemma floating_length mapping ps ps' : List.length ps' = List.length ps -> floating mapping ps -> floating mapping ps'.
Proof. intros L [A B]. split; [exact A|]. now rewrite L. Qed.

(** The values, at the floating positions, are [x]; everything else is as in [ps]. *)
Definition moved (mapping : list nat) (x : list R) (ps ps' : list par) : Prop :=
  List.length ps' = List.length ps /\
  (forall i k v, nth_error mapping i = Some k -> nth_error x i = Some v -> nth_error ps' k = option_map (setCurrentFitVal R v) (nth_error ps k)) /\
  forall k, ~ In k mapping -> nth_error ps' k = nth_error ps k.
Lemma in_nth {A} (l : list A) a : In a l -> exists i, nth_error l i = Some a. Proof. apply In_nth_error. Qed.
Lemma nth_some_len {A B} (l : list A) (m : list B) i a : List.length l = List.length m -> nth_error m i = Some a -> exists b, nth_error l i = Some b.
Proof. intros L H. destruct (nth_error l i) eqn:E; [eauto|]. apply nth_error_None in E. assert (i < List.length m)%nat by (apply nth_error_Some; congruence). lia. Qed.
Lemma moved_again mapping x y ps p1 p2 : List.length x = List.length mapping -> moved mapping x ps p1 -> moved mapping y p1 p2 -> moved mapping y ps p2.
Proof.
  intros Lx (L1 & I1 & O1) (L2 & I2 & O2). split; [congruence|]. split.
  - intros i k v Hk Hv. destruct (nth_some_len x mapping i k Lx Hk) as (u & Hu). rewrite (I2 i k v Hk Hv), (I1 i k u Hk Hu). destruct (nth_error ps k); reflexivity.
  - intros k Hk. rewrite O2, O1 by assumption. reflexivity.
Qed.
Lemma assign_moved mapping xx ps : floating mapping ps -> List.length xx = List.length mapping -> exists ps', assign mapping xx ps = Ok ps' /\ moved mapping xx ps ps'.
Proof. intros F L. destruct (assign_ok mapping xx ps F L) as (ps' & E & A). exists ps'. split; [exact E|exact A]. Qed.
Lemma last_cons {A} (l : list A) : forall y x, last (y :: l) x = last l y.
Proof. induction l as [|z l IH]; intros y x; [reflexivity|]. change (last (y :: z :: l) x) with (last (z :: l) x). rewrite !IH. reflexivity. Qed.
(** After visiting points, the parameters are at the last of them. *)
Lemma visit_moved mapping : forall l ps x, floating mapping ps -> points (List.length mapping) (x :: l) -> forall ps0, moved mapping x ps0 ps ->
  exists ps', visit mapping l ps = Ok ps' /\ moved mapping (last l x) ps0 ps'.
Proof.
  induction l as [|y l IH]; intros ps x F P ps0 M; [exists ps; split; [reflexivity|exact M]|]. cbn [visit].
  destruct (assign_moved mapping y ps F (P y (or_intror (or_introl eq_refl)))) as (p1 & -> & M1). cbn [bind].
  destruct (IH p1 y) with (ps0 := ps0) as (ps' & E & M').
  - apply floating_length with ps; [exact (proj1 M1)|exact F].
  - intros z Hz. apply P. now right.
  - apply moved_again with x ps; [apply P; now left|exact M|exact M1].
  - exists ps'. split; [exact E|]. rewrite last_cons. exact M'.
Qed.
Lemma set_same (p : par) : setCurrentFitVal R (mean R p) p = p. Proof. now destruct p. Qed.
(** The present values of the floating parameters. *)
Definition here (mapping : list nat) (ps : list par) : list R := map (fun k => match nth_error ps k with Some p => mean R p | None => 0 end) mapping.
Lemma moved_here mapping ps : moved mapping (here mapping ps) ps ps.
Proof.
  split; [reflexivity|]. split; [|reflexivity]. intros i k v Hk Hv. unfold here in Hv. rewrite nth_error_map, Hk in Hv. cbn [option_map] in Hv. injection Hv as <-.
  destruct (nth_error ps k); [cbn [option_map]; now rewrite set_same|reflexivity].
Qed.
Lemma visit_from mapping l ps : floating mapping ps -> points (List.length mapping) l -> exists ps', visit mapping l ps = Ok ps' /\ moved mapping (last l (here mapping ps)) ps ps'.
Proof.
  intros F P. apply visit_moved; [exact F| |apply moved_here]. intros x [<-|Hx]; [unfold here; apply map_length|now apply P].
Qed.
Lemma last_length {A} n (l : list (list A)) x : (forall y, In y (x :: l) -> List.length y = n) -> List.length (last l x) = n.
Proof. revert x. induction l as [|y l IH]; intros x H; [apply H; now left|]. rewrite last_cons. apply IH. intros z Hz. apply H. now right. Qed.

(** *** A fit *)
Lemma setResult_set x e lo hi v p : setResult x e lo hi (setCurrentFitVal R v p) = setResult x e lo hi p. Proof. reflexivity. Qed.
Definition fitted (mapping : list nat) (x es : list R) (ps ps' : list par) : Prop :=
  List.length ps' = List.length ps /\
  (forall i k v e, nth_error mapping i = Some k -> nth_error x i = Some v -> nth_error es i = Some e -> nth_error ps' k = option_map (setResult v e e e) (nth_error ps k)) /\
  forall k, ~ In k mapping -> nth_error ps' k = nth_error ps k.
Lemma fit_ok mapping a ps : floating mapping ps -> points (List.length mapping) (trace a) -> List.length (best a) = List.length mapping -> List.length (errors a) = List.length mapping ->
  exists ps', doFit mapping a None ps = Ok ps' /\ fitted mapping (best a) (errors a) ps ps'.
Proof.
  intros F Pt Lb Le. destruct (visit_from mapping (trace a) ps F Pt) as (p1 & E1 & L1 & I1 & O1). unfold doFit. rewrite E1. cbn [bind].
  destruct (results_ok mapping (best a) (errors a) p1 (floating_length _ _ _ L1 F) Lb Le) as (p2 & -> & L2 & I2 & O2). cbn [bind]. exists p2. split; [reflexivity|]. split; [congruence|]. split.
  - intros i k v e Hk Hv He. rewrite (I2 i k v e Hk Hv He). assert (Ll : List.length (last (trace a) (here mapping ps)) = List.length mapping) by (apply last_length; intros y [<-|Hy]; [unfold here; apply map_length|now apply Pt]).
    destruct (nth_some_len _ mapping i k Ll Hk) as (u & Hu). rewrite (I1 i k u Hk Hu). destruct (nth_error ps k); reflexivity.
  - intros k Hk. rewrite O2, O1 by assumption. reflexivity.
Qed.

(** With MINOS: the values are those of the last point tried. *)
Definition lasts (l : list interval) (x : list R) : list R := last (flat_map tried l) x.
Lemma last_app_ {A} (l m : list A) x : last (l ++ m) x = last m (last l x).
Proof. revert x. induction l as [|y l IH]; intro x; [reflexivity|]. cbn [app]. now rewrite !last_cons, IH. Qed.
Lemma run_minos_ok all : forall mapping pre l ps0 x, all = pre ++ mapping -> NoDup all -> (forall k, In k all -> (k < List.length ps0)%nat) ->
  List.length l = List.length mapping -> points (List.length all) (x :: flat_map tried l) ->
  exists ps', run_minos all mapping l ps0 = Ok ps' /\ List.length ps' = List.length ps0 /\
    (moved all x ps0 ps0 -> 
      (forall i k v a p, nth_error mapping i = Some k -> nth_error l i = Some a -> nth_error all (List.length pre + i) = Some k -> nth_error (lasts l x) (List.length pre + i) = Some v ->
         nth_error ps0 k = Some p -> nth_error ps' k = Some (setResult v (err R p) (low a) (high a) p)) /\
      (forall i k v p, (i < List.length pre)%nat -> nth_error all i = Some k -> nth_error (lasts l x) i = Some v -> nth_error ps0 k = Some p -> nth_error ps' k = Some (setCurrentFitVal R v p)) /\
      forall k, ~ In k all -> nth_error ps' k = nth_error ps0 k).
Proof.
  induction mapping as [|k m IH]; intros pre [|a l] ps0 x Ea ND Hr L P; try discriminate.
  - exists ps0. split; [reflexivity|]. split; [reflexivity|]. intros (_ & I0 & _). split; [intros [|i] ? ? ? ? Hk; discriminate|]. split; [|reflexivity].
    intros i k v p Hi Hk Hv Hp. rewrite (I0 i k v Hk Hv), Hp. reflexivity.
  - cbn [run_minos flat_map] in *.
    assert (F0 : floating all ps0) by (split; assumption).
    destruct (visit_from all (tried a) ps0 F0) as (p1 & E1 & M1); [intros y Hy; apply P; right; apply in_or_app; now left|]. rewrite E1. cbn [bind].
    assert (Hk : In k all) by (rewrite Ea; apply in_or_app; right; now left).
    destruct (modify_ok (fun p => setResult (mean R p) (err R p) (low a) (high a) p) k p1) as (p2 & -> & L2 & E2); [rewrite (proj1 M1); now apply Hr|]. cbn [bind].
    set (x' := last (tried a) x).
    destruct (IH (pre ++ [k]) l p2 x') as (p3 & E3 & L3 & H3).
    + now rewrite <- app_assoc.
    + exact ND.
    + intros j Hj. rewrite L2, (proj1 M1). now apply Hr.
    + now injection L.
    + intros y [<-|Hy]; [|apply P; right; apply in_or_app; now right]. apply last_length. intros z [<-|Hz]; apply P; [now left|right; apply in_or_app; now left].
    + exists p3. split; [exact E3|]. split; [rewrite L3, L2; exact (proj1 M1)|]. intro M0.
      assert (M1' : moved all x' ps0 p1).
      { destruct (visit_moved all (tried a) ps0 x F0) with (ps0 := ps0) as (q & Eq & Mq); [intros y [<-|Hy]; apply P; [now left|right; apply in_or_app; now left]|exact M0|].
        rewrite E1 in Eq. injection Eq as <-. exact Mq. }
      assert (Lx' : List.length x' = List.length all) by (apply last_length; intros z [<-|Hz]; apply P; [now left|right; apply in_or_app; now left]).
      assert (M2 : moved all x' p2 p2).
      { split; [reflexivity|]. split; [|reflexivity]. intros i j v Hj Hv. rewrite E2, (proj1 (proj2 M1') i j v Hj Hv). destruct (Nat.eqb_spec j k); destruct (nth_error ps0 j) as [p|]; reflexivity. }
      destruct (H3 M2) as (A & B & D). clear H3.
      assert (Hl : lasts (a :: l) x = lasts l x') by (unfold lasts; cbn [flat_map]; rewrite last_app_; reflexivity). rewrite Hl.
      assert (Ek : nth_error all (List.length pre) = Some k) by (rewrite Ea, nth_error_app2, Nat.sub_diag by lia; reflexivity).
      destruct (nth_some_len x' all _ k Lx' Ek) as (u & Hu).
      split; [|split].
      * intros [|i] j v b p Hj Hb Ha Hv Hp; cbn [nth_error] in Hj, Hb.
        -- injection Hj as ->. injection Hb as ->. rewrite Nat.add_0_r in Ha, Hv.
           assert (Hp2 : nth_error p2 j = Some (setResult u (err R p) (low b) (high b) p)) by (rewrite E2, Nat.eqb_refl, (proj1 (proj2 M1') _ j u Ek Hu), Hp; reflexivity).
           rewrite (B (List.length pre) j v (setResult u (err R p) (low b) (high b) p)); [reflexivity|rewrite app_length; cbn; lia|exact Ek|exact Hv|exact Hp2].
        -- rewrite app_length in A. cbn [List.length] in A. replace (List.length pre + S i)%nat with (List.length pre + 1 + i)%nat in Ha, Hv by lia.
           assert (Nk : j <> k) by (intro; subst j; pose proof (proj1 (NoDup_nth_error all) ND (List.length pre) (List.length pre + 1 + i)%nat) as Q; rewrite Ek, Ha in Q; specialize (Q ltac:(apply nth_error_Some; congruence) eq_refl); lia).
           destruct (nth_some_len x' all _ j Lx' Ha) as (w & Hw).
           assert (Hp2 : nth_error p2 j = Some (setCurrentFitVal R w p)) by (rewrite E2; destruct (Nat.eqb_spec j k); [contradiction|]; rewrite (proj1 (proj2 M1') _ j w Ha Hw), Hp; reflexivity).
           rewrite (A i j v b (setCurrentFitVal R w p) Hj Hb Ha Hv Hp2). reflexivity.
      * intros i j v p Hi Ha Hv Hp.
        assert (Nk : j <> k) by (intro; subst j; pose proof (proj1 (NoDup_nth_error all) ND i (List.length pre)) as Q; rewrite Ek, Ha in Q; specialize (Q ltac:(apply nth_error_Some; congruence) eq_refl); lia).
        destruct (nth_some_len x' all _ j Lx' Ha) as (w & Hw).
        assert (Hp2 : nth_error p2 j = Some (setCurrentFitVal R w p)) by (rewrite E2; destruct (Nat.eqb_spec j k); [contradiction|]; rewrite (proj1 (proj2 M1') _ j w Ha Hw), Hp; reflexivity).
        rewrite (B i j v (setCurrentFitVal R w p)); [reflexivity|rewrite app_length; cbn; lia|exact Ha|exact Hv|exact Hp2].
      * intros j Hj. rewrite D, E2 by assumption. destruct (Nat.eqb_spec j k) as [->|]; [contradiction|]. exact (proj2 (proj2 M1') j Hj).
Qed.

Lemma list_ext {A} (l m : list A) : List.length l = List.length m -> (forall k, nth_error l k = nth_error m k) -> l = m.
Proof.
  revert m. induction l as [|x l IH]; intros [|y m] L H; try discriminate; [reflexivity|]. assert (x = y) as -> by (specialize (H 0%nat); cbn in H; congruence).
  f_equal. apply IH; [now injection L|]. intro k. exact (H (S k)).
Qed.
(** minos() keeps everything but the two errors of its parameter, when the parameters are at the best point. *)
Lemma minos_ok mapping k i X a ps p : floating mapping ps -> nth_error mapping i = Some k -> nth_error ps k = Some p ->
  points (List.length mapping) (tried a) -> X = here mapping ps ->
  exists ps', minos mapping k X a ps = Ok ps' /\ List.length ps' = List.length ps /\ (forall j, j <> k -> nth_error ps' j = nth_error ps j) /\
    (nth_error ps' k = Some p \/ nth_error ps' k = Some (setResult (mean R p) (err R p) (low a) (high a) p)) /\
    ((minInit R p = 0 /\ maxInit R p = 0 \/ minInit R p <= mean R p - err R p /\ mean R p + err R p <= maxInit R p) ->
      nth_error ps' k = Some (setResult (mean R p) (err R p) (low a) (high a) p)).
Proof.
  intros F Hk Hp Pt ->. assert (Lh : List.length (here mapping ps) = List.length mapping) by (unfold here; apply map_length).
  assert (G : exists ps', (bind (visit mapping (tried a) ps) (fun ps1 => bind (modify (fun p0 => setResult (mean R p) (err R p0) (low a) (high a) p0) k ps1) (fun ps2 => assign mapping (here mapping ps) ps2))) = Ok ps' /\
    List.length ps' = List.length ps /\ (forall j, j <> k -> nth_error ps' j = nth_error ps j) /\ nth_error ps' k = Some (setResult (mean R p) (err R p) (low a) (high a) p)).
  { destruct (visit_from mapping (tried a) ps F Pt) as (p1 & -> & M1). cbn [bind].
    assert (Ll : List.length (last (tried a) (here mapping ps)) = List.length mapping) by (apply last_length; intros y [<-|Hy]; [exact Lh|now apply Pt]).
    destruct (modify_ok (fun p0 => setResult (mean R p) (err R p0) (low a) (high a) p0) k p1) as (p2 & -> & L2 & E2); [rewrite (proj1 M1); apply nth_error_Some; congruence|]. cbn [bind].
    destruct (assign_ok mapping (here mapping ps) p2) as (p3 & -> & L3 & I3 & O3); [apply floating_length with ps; [rewrite L2; exact (proj1 M1)|exact F]|exact Lh|].
    assert (Hh : forall i j, nth_error mapping i = Some j -> forall q, nth_error ps j = Some q -> nth_error (here mapping ps) i = Some (mean R q)) by (intros i0 j Hj q Hq; unfold here; now rewrite nth_error_map, Hj; cbn [option_map]; rewrite Hq).
    exists p3. split; [reflexivity|]. split; [rewrite L3, L2; exact (proj1 M1)|]. split.
    - intros j Nj. destruct (in_dec Nat.eq_dec j mapping) as [Hj|Hj].
      + destruct (in_nth _ _ Hj) as (n & Hn). destruct (nth_error ps j) as [q|] eqn:Hq; [|exfalso; apply nth_error_None in Hq; specialize (proj2 F j Hj); lia].
        rewrite (I3 n j (mean R q) Hn (Hh n j Hn q Hq)), E2. destruct (Nat.eqb_spec j k); [contradiction|]. destruct (nth_some_len _ mapping n j Ll Hn) as (u & Hu).
        rewrite (proj1 (proj2 M1) n j u Hn Hu), Hq. cbn [option_map]. f_equal. now destruct q.
      + rewrite O3, E2 by assumption. destruct (Nat.eqb_spec j k); [contradiction|]. exact (proj2 (proj2 M1) j Hj).
    - rewrite (I3 i k (mean R p) Hk (Hh i k Hk p Hp)), E2, Nat.eqb_refl. destruct (nth_some_len _ mapping i k Ll Hk) as (u & Hu). rewrite (proj1 (proj2 M1) i k u Hk Hu), Hp. reflexivity. }
  unfold minos. rewrite Hp. cbn [of_opt bind]. unfold rltb, zerob.
  assert (Dn : exists ps', Ok ps = Ok ps' /\ List.length ps' = List.length ps /\ (forall j, j <> k -> nth_error ps' j = nth_error ps j) /\ nth_error ps' k = Some p) by (exists ps; auto).
  destruct (Req_EM_T (minInit R p) 0) as [Z1|Z1], (Req_EM_T (maxInit R p) 0) as [Z2|Z2]; cbn [negb orb andb].
  1: { destruct G as (ps' & E & A & B & D); exists ps'; exact (conj E (conj A (conj B (conj (or_intror D) (fun _ => D))))). }
  all: destruct (Rlt_dec (mean R p - err R p) (minInit R p)) as [Q1|Q1]; cbn [andb];
    [exists ps; split; [reflexivity|]; split; [reflexivity|]; split; [reflexivity|]; split; [now left|]; intros [[? ?]|[? ?]]; exfalso; lra|].
  all: destruct (Rlt_dec (maxInit R p) (mean R p + err R p)) as [Q2|Q2]; cbn [andb];
    [exists ps; split; [reflexivity|]; split; [reflexivity|]; split; [reflexivity|]; split; [now left|]; intros [[? ?]|[? ?]]; exfalso; lra|].
  all: destruct G as (ps' & E & A & B & D); exists ps'; exact (conj E (conj A (conj B (conj (or_intror D) (fun _ => D))))).
Qed.

Lemma modify_twice f g k ps ps1 : modify f k ps = Ok ps1 -> modify g k ps1 = modify (fun p => g (f p)) k ps.
Proof.
  intro H. unfold modify in *. destruct (nth_error ps k) as [p|] eqn:E; [|discriminate]. cbn [of_opt bind] in *. assert (Hk : (k < List.length ps)%nat) by (apply nth_error_Some; congruence).
  destruct (set_at_Some k (f p) ps Hk) as (l & El & Ll & Nl). rewrite El in H. cbn [of_opt] in H. injection H as <-. rewrite Nl, Nat.eqb_refl. cbn [of_opt bind].
  destruct (set_at_Some k (g (f p)) ps Hk) as (m & Em & Lm & Nm). rewrite Em. destruct (set_at_Some k (g (f p)) l ltac:(lia)) as (m' & Em' & Lm' & Nm'). rewrite Em'. cbn [of_opt]. f_equal.
  apply list_ext; [congruence|]. intro j. rewrite Nm', Nm, Nl. destruct (Nat.eqb_spec j k); reflexivity.
Qed.
Lemma modify_ext f g k ps : (forall p, nth_error ps k = Some p -> f p = g p) -> modify f k ps = modify g k ps.
Proof. intro H. unfold modify. destruct (nth_error ps k) as [p|] eqn:E; [|reflexivity]. cbn [of_opt bind]. now rewrite (H p eq_refl). Qed.
Lemma modify_id k ps p : nth_error ps k = Some p -> modify (setCurrentFitVal R (mean R p)) k ps = Ok ps.
Proof.
  intro H. destruct (modify_ok (setCurrentFitVal R (mean R p)) k ps) as (l & -> & L & N); [apply nth_error_Some; congruence|]. f_equal. apply list_ext; [exact L|].
  intro j. rewrite N. destruct (Nat.eqb_spec j k) as [->|]; [|reflexivity]. rewrite H. cbn. now rewrite set_same.
Qed.
Lemma values_modify x k ps ps1 : modify (setCurrentFitVal R x) k ps = Ok ps1 -> values ps1 = replaced k x (values ps).
Proof.
  unfold modify, values, replaced. destruct (nth_error ps k) as [p|] eqn:E; [|discriminate]. cbn [of_opt bind]. revert k ps1 E. induction ps as [|q ps IH]; intros [|k] ps1 E; try discriminate.
  - cbn. intro H. injection H as <-. reflexivity.
  - cbn [set_at nth_error] in *. destruct (set_at k (setCurrentFitVal R x p) ps) as [l|] eqn:El; [|discriminate]. cbn. intro H. injection H as <-. cbn [map]. f_equal. apply (IH k l E). now rewrite El.
Qed.
Lemma replaced_twice x y : forall v k, (k < List.length v)%nat -> replaced k x (replaced k y v) = replaced k x v.
Proof. unfold replaced. induction v as [|a v IH]; intros [|k] H; cbn in *; try lia; [reflexivity|]. f_equal. apply IH. lia. Qed.
Section Scan.
  Variable fcn : list R -> R.
  Lemma scan_loop_ok k offset max step : forall N fuel sv ps pts, (k < List.length ps)%nat -> (N <= fuel)%nat -> (forall i, (i < N)%nat -> sv + INR i * step < max) -> max <= sv + INR N * step ->
    exists ps', scan_loop fcn fuel k offset sv max step ps pts = Ok (ps', pts ++ map (fun i => (sv + INR i * step, fcn (replaced k (sv + INR i * step - offset) (values ps)))) (seq 0 N)) /\
      (forall x, modify (setCurrentFitVal R x) k ps' = modify (setCurrentFitVal R x) k ps).
  Proof.
    induction N as [|N IH]; intros fuel sv ps pts Hk Hf Hi Hm.
    - exists ps. cbn [INR] in Hm. replace (sv + 0 * step) with sv in Hm by ring. split; [|reflexivity]. cbn [seq map]. rewrite app_nil_r. destruct fuel; cbn [scan_loop]; destruct (Rlt_dec sv max); try lra; reflexivity.
    - destruct fuel as [|fuel]; [lia|]. assert (Hs : sv < max) by (specialize (Hi 0%nat ltac:(lia)); cbn [INR] in Hi; lra). cbn [scan_loop]. destruct (Rlt_dec sv max) as [_|]; [|lra].
      destruct (modify_ok (setCurrentFitVal R (sv - offset)) k ps Hk) as (ps1 & E1 & L1 & N1). rewrite E1. cbn [bind].
      assert (St : forall i, sv + step + INR i * step = sv + INR (S i) * step) by (intro i; rewrite S_INR; ring).
      destruct (IH fuel (sv + step) ps1 (pts ++ [(sv, fcn (values ps1))])) as (ps' & E' & M').
      + congruence.
      + lia.
      + intros i Hn. rewrite St. apply Hi. lia.
      + rewrite St. exact Hm.
      + exists ps'. split.
        * rewrite E'. f_equal. f_equal. rewrite <- app_assoc. f_equal. cbn [seq map app]. rewrite (values_modify _ _ _ _ E1). f_equal; [|].
          -- cbn [INR]. f_equal; [ring|]. f_equal. f_equal. ring.
          -- rewrite <- seq_shift, map_map. apply map_ext. intro i. rewrite St. f_equal. f_equal. apply replaced_twice. unfold values. now rewrite map_length.
        * intro x. rewrite M'. rewrite (modify_twice _ _ _ _ _ E1). apply modify_ext. reflexivity.
  Qed.
  Lemma scan_ok k offset min max step N fuel ps : (k < List.length ps)%nat -> (N <= fuel)%nat -> (forall i, (i < N)%nat -> min + INR i * step < max) -> max <= min + INR N * step ->
    scan fcn fuel k offset min max step ps = Ok (ps, map (fun i => (min + INR i * step, fcn (replaced k (min + INR i * step - offset) (values ps)))) (seq 0 N)).
  Proof.
    intros Hk Hf Hi Hm. unfold scan. destruct (nth_error ps k) as [p|] eqn:E; [|apply nth_error_None in E; lia]. cbn [of_opt bind].
    destruct (scan_loop_ok k offset max step N fuel min ps [] Hk Hf Hi Hm) as (ps' & -> & M). cbn [bind fst snd app]. rewrite M, (modify_id k ps p E). reflexivity.
  Qed.
  Lemma gradient_ok : forall mapping ps out, (forall k, In k mapping -> (k < List.length ps)%nat) ->
    gradientTest fcn mapping ps out = Ok (ps, out ++ map (fun k => match nth_error ps k with
      | Some p => if zerob (stepInit R p) then None else
          Some ((fcn (replaced k (meanInit R p + stepInit R p) (values ps)) - fcn (replaced k (meanInit R p - stepInit R p) (values ps))) / (2 * stepInit R p))
      | None => None end) mapping).
  Proof.
    induction mapping as [|k m IH]; intros ps out H; [cbn; now rewrite app_nil_r|]. cbn [gradientTest map]. destruct (nth_error ps k) as [p|] eqn:E; [|apply nth_error_None in E; specialize (H k (or_introl eq_refl)); lia].
    assert (Hk : (k < List.length ps)%nat) by (apply H; now left). cbn [of_opt bind].
    destruct (modify_ok (setCurrentFitVal R (meanInit R p + stepInit R p)) k ps Hk) as (p1 & E1 & L1 & _). rewrite E1. cbn [bind].
    destruct (modify_ok (setCurrentFitVal R (meanInit R p - stepInit R p)) k p1 ltac:(lia)) as (p2 & E2 & L2 & _). rewrite E2. cbn [bind].
    rewrite (modify_twice _ _ _ _ _ E2), (modify_twice _ _ _ _ _ E1).
    rewrite (modify_ext _ (setCurrentFitVal R (mean R p))) by reflexivity. rewrite (modify_id k ps p E). cbn [bind].
    pose proof E2 as E2'. rewrite (modify_twice _ _ _ _ _ E1) in E2'. rewrite (modify_ext _ (setCurrentFitVal R (meanInit R p - stepInit R p))) in E2' by reflexivity.
    rewrite (values_modify _ _ _ _ E1), (values_modify _ _ _ _ E2').
    rewrite IH by (intros j Hj; apply H; now right). now rewrite <- app_assoc.
  Qed.
  Lemma scan_forever k offset max step : step <= 0 -> forall fuel sv ps pts, (k < List.length ps)%nat -> sv < max -> scan_loop fcn fuel k offset sv max step ps pts = OutOfFuel.
  Proof.
    intro Hs. induction fuel as [|fuel IH]; intros sv ps pts Hk Hm; cbn [scan_loop]; destruct (Rlt_dec sv max); try lra; [reflexivity|].
    destruct (modify_ok (setCurrentFitVal R (sv - offset)) k ps Hk) as (p1 & -> & L & _). cbn [bind]. apply IH; [congruence|lra].
  Qed.
End Scan.
