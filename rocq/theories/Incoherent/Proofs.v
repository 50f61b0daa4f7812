From Coq Require Import Reals Lra Lia.
From Verif.Common Require Import Prelude.
From Verif.Store Require Import Model.
From Verif.Coherent Require Import Model Spec Proofs Real.
From Verif.Incoherent Require Import Model Spec.
Local Open Scope R_scope.

Lemma ksum_ok {A} (f : A -> res R) (g : A -> R) (l : list A) : (forall x, In x l -> f x = Ok (g x)) -> forall acc, ksum R RS l f acc = Ok (acc + Rsum g l).
Proof.
  induction l as [|x l IH]; intros H acc; cbn [ksum Rsum fold_right]; [f_equal; ring|]. rewrite (H x (or_introl eq_refl)). cbn [bind].
  rewrite IH by (intros y Hy; apply H; now right). f_equal. cbn. fold (Rsum g l). ring.
Qed.
Lemma rsum_seq {A} (l : list A) (f : A -> R) (d : R) : Rsum (fun i => match nth_error l i with Some y => f y | None => d end) (seq 0 (List.length l)) = Rsum f l.
Proof.
  assert (G : forall pre, Rsum (fun i => match nth_error (pre ++ l) i with Some y => f y | None => d end) (seq (List.length pre) (List.length l)) = Rsum f l); [|exact (G [])].
  induction l as [|x l IH]; intro pre; [reflexivity|]. cbn [List.length seq Rsum fold_right]. rewrite nth_error_app2, Nat.sub_diag by lia. cbn [nth_error].
  specialize (IH (pre ++ [x])). rewrite <- app_assoc, app_length, Nat.add_1_r in IH. cbn [app] in IH. unfold Rsum in *. now rewrite IH.
Qed.
Lemma rsum_scale {A} (f : A -> R) k l : Rsum (fun x => k * f x) l = k * Rsum f l.
Proof. induction l as [|x l IH]; cbn [Rsum fold_right]; [ring|]. unfold Rsum in IH. rewrite IH. unfold Rsum. ring. Qed.
Lemma rsum_swap {A B} (f : A -> B -> R) l m : Rsum (fun x => Rsum (f x) m) l = Rsum (fun y => Rsum (fun x => f x y) l) m.
Proof.
  induction l as [|x l IH]; cbn [Rsum fold_right].
  - induction m as [|y m IHm]; [reflexivity|]. cbn [Rsum fold_right]. unfold Rsum in IHm. rewrite <- IHm. ring.
  - fold (Rsum (fun x => Rsum (f x) m) l). rewrite IH. clear. induction m as [|y m IHm]; cbn [Rsum fold_right]; [ring|]. unfold Rsum in *. rewrite <- IHm. ring.
Qed.
Lemma size_mul g a : size2 (cmul RS g a) = size2 g * size2 a.
Proof. destruct g, a. unfold size2. cbn. ring. Qed.
Lemma cnorm_size a : cnorm R RS a = size2 a.
Proof. unfold cnorm, size2. cbn. ring. Qed.

Section Sum.
  Variables (Ev : Type) (wt : Ev -> R) (V P : Type).
  Notation element := (element R Ev V P).
  Notation csum := (csum R Ev V P).
  Variables (els : list (element * list V)) (p : P) (s : csum).
  Hypothesis Cu : Forall2 (current R Ev V P p) els (mes s).

  Lemma lengths : List.length (mes s) = List.length els. Proof. symmetry. now apply f2_length with (1 := Cu). Qed.
  Lemma element_at i y : nth_error els i = Some y -> exists m, nth_error (mes s) i = Some m /\ coef m = coupling (fst y) p /\ amp (elem m) (ext m) = fresh R Ev V P p y.
  Proof.
    intro H. pose proof lengths as L. destruct (nth_error (mes s) i) as [m|] eqn:E; [|apply nth_error_None in E; assert (i < List.length els)%nat by (apply nth_error_Some; congruence); lia].
    exists m. destruct (f2_nth _ _ _ Cu i y m H E) as (A & B & D). split; [reflexivity|]. split; [exact D|]. unfold fresh. now rewrite A, B.
  Qed.
  Lemma seq_in i : In i (seq 0 (List.length (mes s))) -> exists y, nth_error els i = Some y.
  Proof. intro H. apply in_seq in H. rewrite lengths in H. destruct (nth_error els i) eqn:E; [eauto|]. apply nth_error_None in E. lia. Qed.

  Lemma unnormalised_ok e x : (forall k y, nth_error els k = Some y -> read (cplx R) AoS (cache s) e k = Ok (fresh R Ev V P p y x)) ->
    prob_unnormalised R RS Ev V P s e = Ok (incoherent Ev V P p els x).
  Proof.
    intro H. unfold prob_unnormalised.
    rewrite (ksum_ok _ (fun i => match nth_error els i with Some y => size2 (cmul RS (coupling (fst y) p) (fresh R Ev V P p y x)) | None => 0 end)).
    - rewrite lengths, rsum_seq. cbn. f_equal. unfold incoherent. ring.
    - intros i Hi. destruct (seq_in i Hi) as [y Hy]. destruct (element_at i y Hy) as (m & Hm & Ec & _). rewrite Hm, Hy, (H i y Hy). cbn [of_opt bind]. now rewrite Ec, cnorm_size.
  Qed.
  Lemma no_cache_ok x : prob_no_cache R RS Ev V P s x = incoherent Ev V P p els x.
  Proof.
    assert (G : forall els l, Forall2 (current R Ev V P p) els l -> forall acc, fold_left (fun a m => kadd RS a (cnorm R RS (cmul RS (coef m) (amp (elem m) (ext m) x)))) l acc =
      acc + Rsum (fun y => size2 (cmul RS (coupling (fst y) p) (fresh R Ev V P p y x))) els).
    { clear. induction 1 as [|y m ys l (A & B & D) _ IH]; intro acc; cbn [fold_left Rsum fold_right]; [ring|]. rewrite IH, cnorm_size.
      replace (size2 (cmul RS (coupling (fst y) p) (fresh R Ev V P p y x))) with (size2 (cmul RS (coef m) (amp (elem m) (ext m) x))) by (unfold fresh; now rewrite A, B, D).
      cbn [kadd RS]. unfold Rsum. ring. }
    unfold prob_no_cache, incoherent. rewrite (G _ _ Cu). cbn [k0 RS]. ring.
  Qed.
  Lemma component_ok i y x : nth_error els i = Some y -> component R RS Ev V P s i x = Ok (size2 (cmul RS (coupling (fst y) p) (fresh R Ev V P p y x))).
  Proof. intro H. destruct (element_at i y H) as (m & Hm & Ec & Ea). unfold component. rewrite Hm. cbn [of_opt bind]. now rewrite cnorm_size, Ec, Ea. Qed.

  Variable mc : list Ev.
  Hypothesis Hn : forall i y, nth_error els i = Some y -> nth_error (norms s) (i * List.length els + i) = Some (average R RS Ev wt (fresh R Ev V P p y) (fresh R Ev V P p y) mc).
  Lemma average_diag a : average R RS Ev wt a a mc = (mean Ev wt (fun x => size2 (a x)) mc, 0).
  Proof.
    rewrite average_sum. rewrite (csum_ext _ (fun x => real (wt x * size2 (a x)))).
    - rewrite csum_real. unfold mean. apply ceq; cbn; unfold Rdiv; ring.
    - intros x _. destruct (a x) as [u v]. unfold size2, real. apply ceq; cbn; ring.
  Qed.
  (** The share of one element in the norm. *)
  Definition share (q : P) (y : element * list V) : R := size2 (coupling (fst y) q) * mean Ev wt (fun x => size2 (fresh R Ev V P p y x)) mc.
  Lemma mean_share y : mean Ev wt (fun x => size2 (cmul RS (coupling (fst y) p) (fresh R Ev V P p y x))) mc = share p y.
  Proof.
    unfold mean, share. rewrite (rsum_ext _ (fun x => size2 (coupling (fst y) p) * (wt x * size2 (fresh R Ev V P p y x)))) by (intros x _; rewrite size_mul; ring).
    rewrite rsum_scale. unfold mean, Rdiv. ring.
  Qed.
  Lemma mean_incoherent : mean Ev wt (incoherent Ev V P p els) mc = Rsum (share p) els.
  Proof.
    unfold mean, incoherent. rewrite (rsum_ext _ (fun x => Rsum (fun y => wt x * size2 (cmul RS (coupling (fst y) p) (fresh R Ev V P p y x))) els)) by (intros x _; now rewrite rsum_scale).
    rewrite rsum_swap. unfold Rdiv. rewrite Rmult_comm, <- rsum_scale. apply rsum_ext. intros y _. rewrite <- mean_share. unfold mean, Rdiv. ring.
  Qed.
  Lemma norm_ok : norm R RS Ev V P s = Ok (mean Ev wt (incoherent Ev V P p els) mc).
  Proof.
    rewrite mean_incoherent. unfold norm. cbv zeta. rewrite lengths.
    rewrite (ksum_ok _ (fun i => match nth_error els i with Some y => share p y | None => 0 end)).
    - rewrite rsum_seq. cbn. f_equal. ring.
    - intros i Hi. rewrite <- lengths in Hi. destruct (seq_in i Hi) as [y Hy]. destruct (element_at i y Hy) as (m & Hm & Ec & _). rewrite Hm, Hy. cbn [of_opt bind].
      rewrite (Hn i y Hy). cbn [of_opt bind]. rewrite average_diag, cnorm_size, Ec. unfold share. cbn. f_equal. ring.
  Qed.

  Notation tr q := (transfer R Ev V P q s).
  Lemma tr_length q : List.length (mes (tr q)) = List.length els. Proof. cbn [transfer mes]. rewrite map_length. apply lengths. Qed.
  Lemma tr_at q i y : nth_error els i = Some y -> exists m, nth_error (mes (tr q)) i = Some m /\ coef m = coupling (fst y) q.
  Proof.
    intro H. pose proof lengths as L. destruct (nth_error (mes s) i) as [m|] eqn:E; [|apply nth_error_None in E; assert (i < List.length els)%nat by (apply nth_error_Some; congruence); lia].
    destruct (f2_nth _ _ _ Cu i y m H E) as (A & _). cbn [transfer mes]. rewrite nth_error_map, E. cbn [option_map]. eexists. split; [reflexivity|]. cbn [coef]. now rewrite A.
  Qed.
  Definition T (q : P) (i j : nat) : cplx R := if (i =? j)%nat then match nth_error els i with Some y => real (share q y) | None => c0 RS end else c0 RS.
  Lemma term_is q i j : (i < List.length els)%nat -> (j < List.length els)%nat -> ff_term R RS Ev V P (tr q) i j = Ok (T q i j).
  Proof.
    intros Hi Hj. destruct (nth_error els i) as [y|] eqn:Ey; [|apply nth_error_None in Ey; lia]. destruct (nth_error els j) as [z|] eqn:Ez; [|apply nth_error_None in Ez; lia].
    destruct (tr_at q i y Ey) as (m & Em & Ec). destruct (tr_at q j z Ez) as (m' & Em' & Ec'). unfold ff_term. rewrite Em, Em'. cbn [of_opt bind]. unfold T, norm_pair. rewrite Ey, tr_length.
    replace (norms (tr q)) with (norms s) by reflexivity.
    destruct (Nat.eqb_spec i j) as [<-|N].
    - rewrite Nat.leb_refl, (Hn i y Ey). cbn [of_opt bind]. rewrite average_diag, Ec. assert (y = z) as <- by congruence. rewrite Ec'. f_equal. unfold share, real. destruct (coupling (fst y) q) as [a b].
      unfold size2 at 2. apply ceq; cbn; ring.
    - destruct (Nat.leb_spec i j); [|replace (j =? i)%nat with false by (symmetry; apply Nat.eqb_neq; lia)]; cbn [bind]; f_equal; apply ceq; cbn; ring.
  Qed.
  Lemma csum_one (F : nat -> cplx R) i : forall l, NoDup l -> In i l -> (forall j, j <> i -> F j = c0 RS) -> Csum_ F l = F i.
  Proof.
    induction l as [|x l IH]; intros N H E; [destruct H|]. cbn [Csum_ fold_right]. fold (Csum_ F l). inversion N as [|? ? N0 N1]; subst. destruct H as [->|H].
    - rewrite (csum_ext _ (fun _ => c0 RS)) by (intros y Hy; apply E; intro; subst; tauto). rewrite csum_0. apply ceq; cbn; ring.
    - rewrite IH, E by (try assumption; intro; subst; tauto). apply ceq; cbn; ring.
  Qed.
  Lemma ff_norm_ok q : ff_norm R RS Ev V P (tr q) (seq 0 (List.length els)) = Ok (Rsum (share q) els).
  Proof.
    unfold ff_norm. rewrite (double_sum_ok R RS _ (T q)) by (intros i j Hi Hj; apply in_seq in Hi, Hj; apply term_is; lia). cbn [bind]. f_equal.
    rewrite (fold_ext _ (fun a i => cadd RS a (Csum_ (T q i) (seq 0 (List.length els))))) by (intros; now rewrite fold_csum). rewrite fold_csum.
    rewrite (csum_ext _ (fun i => real (match nth_error els i with Some y => share q y | None => 0 end))).
    - rewrite csum_real, rsum_seq. cbn. ring.
    - intros i Hi. rewrite (csum_one _ i) by (try apply seq_NoDup; try assumption; intros j Hj; unfold T; now rewrite (proj2 (Nat.eqb_neq i j)) by (intro; subst; tauto)).
      unfold T. rewrite Nat.eqb_refl. now destruct (nth_error els i).
  Qed.
  Lemma fraction_ok q i y : nth_error els i = Some y -> fraction R RS Ev V P (tr q) i = Ok (share q y / Rsum (share q) els).
  Proof.
    intro H. assert (Hi : (i < List.length els)%nat) by (apply nth_error_Some; congruence). unfold fraction.
    rewrite (double_sum_ok R RS _ (T q)) by (intros a b [<-|[]] [<-|[]]; now apply term_is). cbn [bind fold_left]. rewrite tr_length, ff_norm_ok. cbn [bind]. unfold T. rewrite Nat.eqb_refl, H. cbn. f_equal. unfold Rdiv. ring.
  Qed.
  Lemma fractions_ok q : fractions R RS Ev V P q s = Ok (map (fun y => share q y / Rsum (share q) els) els, Rsum (share q) els / Rsum (share q) els).
  Proof.
    unfold fractions. rewrite tr_length.
    set (F := fun y => share q y / Rsum (share q) els).
    replace (Rsum (share q) els / Rsum (share q) els) with (0 + Rsum F els).
    2:{ unfold F. rewrite (rsum_ext _ (fun y => / Rsum (share q) els * share q y)) by (intros; unfold Rdiv; ring). rewrite rsum_scale. unfold Rdiv. ring. }
    assert (G : forall pre l rv sum, els = pre ++ l -> (fix go (l : list nat) (rv : list R) (sum : R) {struct l} : res (list R * R) :=
      match l with [] => Ok (rv, sum) | i :: l' => bind (fraction R RS Ev V P (tr q) i) (fun v => go l' (rv ++ [v]) (kadd RS sum v)) end) (seq (List.length pre) (List.length l)) rv sum =
      Ok (rv ++ map F l, sum + Rsum F l)).
    { intros pre l. revert pre. induction l as [|y l IH]; intros pre rv sum E; cbn [List.length seq map Rsum fold_right].
      - rewrite app_nil_r. f_equal. f_equal. ring.
      - rewrite (fraction_ok q (List.length pre) y) by (rewrite E, nth_error_app2, Nat.sub_diag by lia; reflexivity). cbn [bind]. specialize (IH (pre ++ [y]) (rv ++ [F y]) (sum + F y)).
        rewrite app_length, Nat.add_1_r, <- !app_assoc in IH. cbn [app] in IH. etransitivity; [exact (IH E)|]. f_equal. f_equal. fold (Rsum F l). ring. }
    exact (G [] els [] 0 eq_refl).
  Qed.
  Lemma share_nonneg q y : (forall x, In x mc -> 0 <= wt x) -> 0 < Rsum wt mc -> 0 <= share q y.
  Proof.
    intros Hw Ht. unfold share. apply Rmult_le_pos; [unfold size2; nra|]. unfold mean, Rdiv. apply Rmult_le_pos; [|left; now apply Rinv_0_lt_compat].
    clear - Hw. induction mc as [|x l IH]; cbn [Rsum fold_right]; [lra|]. apply Rplus_le_le_0_compat; [apply Rmult_le_pos; [apply Hw; now left|unfold size2; nra]|]. apply IH. intros z Hz. apply Hw. now right.
  Qed.
End Sum.
