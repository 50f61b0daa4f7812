(** The norm and the fit fractions over the real numbers. *)
From Coq Require Import Reals Lra Permutation Ring.
From Verif.Common Require Import Prelude.
From Verif.Coherent Require Import Model Spec Proofs.
Local Open Scope R_scope.

Definition RS : scalar R := Scalar R 0 Rplus Rmult Ropp Rdiv.
Notation CR := (cplx R).
Definition c1 : CR := (1, 0).
Definition copp (a : CR) : CR := (- fst a, - snd a).
Definition csub (a b : CR) : CR := cadd RS a (copp b).
Lemma ceq (a b : CR) : fst a = fst b -> snd a = snd b -> a = b.
Proof. destruct a, b; cbn; intros -> ->; reflexivity. Qed.
Ltac cring := intros; apply ceq; cbn; ring.
Lemma CR_ring : ring_theory (c0 RS) c1 (cadd RS) (cmul RS) csub copp (@eq CR).
Proof. constructor; cring. Qed.
Add Ring CRing : CR_ring.

(** Sums. *)
Definition Rsum {A} (f : A -> R) (l : list A) : R := fold_right (fun x s => f x + s) 0 l.
Definition Csum_ {A} (f : A -> CR) (l : list A) : CR := fold_right (fun x s => cadd RS (f x) s) (c0 RS) l.
Definition real (x : R) : CR := (x, 0).

Lemma fold_csum {A} (f : A -> CR) l : forall acc, fold_left (fun a x => cadd RS a (f x)) l acc = cadd RS acc (Csum_ f l).
Proof. induction l as [|x l IH]; intro acc; cbn [fold_left Csum_ fold_right]; [ring|]. rewrite IH. unfold Csum_. ring. Qed.
Lemma csum_ext {A} (f g : A -> CR) l : (forall x, In x l -> f x = g x) -> Csum_ f l = Csum_ g l.
Proof. induction l as [|x l IH]; intro H; [reflexivity|]. cbn [Csum_ fold_right]. fold (Csum_ f l) (Csum_ g l). rewrite IH by (intros y Hy; apply H; now right). now rewrite H by now left. Qed.
Lemma csum_mul_l {A} c (f : A -> CR) l : cmul RS c (Csum_ f l) = Csum_ (fun x => cmul RS c (f x)) l.
Proof. induction l as [|x l IH]; cbn [Csum_ fold_right]; [ring|]. fold (Csum_ f l) (Csum_ (fun x => cmul RS c (f x)) l). rewrite <- IH. ring. Qed.
Lemma csum_mul_r {A} c (f : A -> CR) l : cmul RS (Csum_ f l) c = Csum_ (fun x => cmul RS (f x) c) l.
Proof. induction l as [|x l IH]; cbn [Csum_ fold_right]; [ring|]. fold (Csum_ f l) (Csum_ (fun x => cmul RS (f x) c) l). rewrite <- IH. ring. Qed.
Lemma csum_add {A} (f g : A -> CR) l : Csum_ (fun x => cadd RS (f x) (g x)) l = cadd RS (Csum_ f l) (Csum_ g l).
Proof. induction l as [|x l IH]; cbn [Csum_ fold_right]; [ring|]. fold (Csum_ f l) (Csum_ g l) (Csum_ (fun x => cadd RS (f x) (g x)) l). rewrite IH. ring. Qed.
Lemma csum_0 {A} (l : list A) : Csum_ (fun _ => c0 RS) l = c0 RS.
Proof. induction l as [|x l IH]; [reflexivity|]. cbn [Csum_ fold_right]. fold (Csum_ (fun _ : A => c0 RS) l). rewrite IH. ring. Qed.
Lemma csum_swap {A B} (f : A -> B -> CR) (l : list A) (m : list B) : Csum_ (fun x => Csum_ (f x) m) l = Csum_ (fun y => Csum_ (fun x => f x y) l) m.
Proof.
  induction l as [|x l IH]; cbn [Csum_ fold_right].
  - fold (Csum_ (fun _ : B => c0 RS) m). now rewrite csum_0.
  - fold (Csum_ (fun x => Csum_ (f x) m) l). rewrite IH. fold (Csum_ (f x) m). rewrite <- csum_add. reflexivity.
Qed.
Lemma csum_conj {A} (f : A -> CR) l : cconj RS (Csum_ f l) = Csum_ (fun x => cconj RS (f x)) l.
Proof.
  induction l as [|x l IH]; [cring|]. cbn [Csum_ fold_right]. fold (Csum_ f l) (Csum_ (fun x => cconj RS (f x)) l). rewrite <- IH. cring.
Qed.
Lemma csum_snd {A B} (f : B -> CR) (g : A -> B) l : Csum_ (fun x => f (g x)) l = Csum_ f (map g l).
Proof. induction l as [|x l IH]; [reflexivity|]. cbn [Csum_ fold_right map]. unfold Csum_ in IH. now rewrite IH. Qed.
Lemma csum_real {A} (f : A -> R) l : Csum_ (fun x => real (f x)) l = real (Rsum f l).
Proof. induction l as [|x l IH]; [reflexivity|]. cbn [Csum_ fold_right Rsum]. fold (Rsum f l) (Csum_ (fun x => real (f x)) l). rewrite IH. cring. Qed.
Lemma numbered_snd {A} (l : list A) : map snd (numbered l) = l.
Proof. unfold numbered. generalize 0%nat. induction l as [|y t IH]; intro k; [reflexivity|]. cbn [List.length seq combine map snd]. now rewrite IH. Qed.

Section Norm.
  Variables (Ev : Type) (wt : Ev -> R) (V : Type) (P : Type).
  Notation element := (element R Ev V P).

  Lemma bilinear_sum (a b : Ev -> CR) l : forall acc, bilinear R RS Ev wt a b l acc =
    cadd RS acc (Csum_ (fun x => cmul RS (real (wt x)) (cmul RS (a x) (cconj RS (b x)))) l).
  Proof.
    induction l as [|x l IH]; intro acc; cbn [bilinear Csum_ fold_right]; [ring|].
    fold (Csum_ (fun x => cmul RS (real (wt x)) (cmul RS (a x) (cconj RS (b x)))) l). rewrite IH. set (t := Csum_ _ l). clearbody t. cring.
  Qed.
  Lemma total_sum l : total_weight R RS Ev wt l = Rsum wt l.
  Proof.
    unfold total_weight. cbn. assert (G : forall acc, fold_left Rplus (map wt l) acc = acc + Rsum wt l); [|rewrite G; ring].
    induction l as [|x l IH]; intro acc; cbn [map fold_left Rsum fold_right]; [ring|]. rewrite IH. unfold Rsum. ring.
  Qed.
  Lemma average_sum a b l : average R RS Ev wt a b l = cmul RS (real (/ Rsum wt l)) (Csum_ (fun x => cmul RS (real (wt x)) (cmul RS (a x) (cconj RS (b x)))) l).
  Proof. unfold average. rewrite total_sum, bilinear_sum. set (t := Csum_ _ l). clearbody t. apply ceq; cbn; unfold Rdiv; ring. Qed.
  Lemma average_conj a b l : cconj RS (average R RS Ev wt b a l) = average R RS Ev wt a b l.
  Proof.
    rewrite !average_sum. transitivity (cmul RS (real (/ Rsum wt l)) (cconj RS (Csum_ (fun x => cmul RS (real (wt x)) (cmul RS (b x) (cconj RS (a x)))) l))); [set (t := Csum_ _ l); clearbody t; cring|].
    f_equal. rewrite csum_conj. apply csum_ext. cring.
  Qed.

  (** The weighted mean of |sum_i g_i A_i|^2. *)
  Definition mean_intensity (p : P) (els : list (element * list V)) (mc : list Ev) : R :=
    Rsum (fun x => wt x * (fst (fresh_sum R RS Ev V P p els x) ^ 2 + snd (fresh_sum R RS Ev V P p els x) ^ 2)) mc / Rsum wt mc.

  Lemma fresh_norm_mean p els mc : fresh_norm R RS Ev wt V P p els mc = mean_intensity p els mc.
  Proof.
    unfold fresh_norm. set (g := fun y : element * list V => coupling (fst y) p). set (A := fun (y : element * list V) x => fresh R Ev V P p y x).
    assert (T : forall ix jx : nat * (element * list V), term R RS Ev wt V P p mc ix jx =
      Csum_ (fun x => cmul RS (real (/ Rsum wt mc * wt x)) (cmul RS (cmul RS (g (snd ix)) (A (snd ix) x)) (cconj RS (cmul RS (g (snd jx)) (A (snd jx) x))))) mc).
    { intros [i x] [j y]. unfold term. cbn [snd]. assert (E : (if (j <? i)%nat then cconj RS (average R RS Ev wt (fresh R Ev V P p y) (fresh R Ev V P p x) mc) else average R RS Ev wt (fresh R Ev V P p x) (fresh R Ev V P p y) mc) = average R RS Ev wt (A x) (A y) mc).
      { destruct (j <? i)%nat; [apply average_conj|reflexivity]. }
      rewrite E, average_sum, !csum_mul_l. apply csum_ext. intros z _. unfold g, A. set (u := coupling (fst x) p). set (v := coupling (fst y) p). set (a := fresh _ _ _ _ _ x z). set (b := fresh _ _ _ _ _ y z). clearbody u v a b. cring. }
    assert (I : forall l acc, fold_left (fun acc ix => fold_left (fun acc jx => cadd RS acc (term R RS Ev wt V P p mc ix jx)) (numbered els) acc) l acc =
      cadd RS acc (Csum_ (fun ix => Csum_ (term R RS Ev wt V P p mc ix) (numbered els)) l)).
    { induction l as [|ix l IH]; intro acc; cbn [fold_left Csum_ fold_right]; [ring|]. rewrite IH, fold_csum. unfold Csum_. ring. }
    rewrite I. clear I.
    set (W := fun x : Ev => real (/ Rsum wt mc * wt x)).
    set (S := fun x => fresh_sum R RS Ev V P p els x).
    assert (ES : forall x, Csum_ (fun jx : nat * (element * list V) => cmul RS (g (snd jx)) (A (snd jx) x)) (numbered els) = S x).
    { intro x. rewrite (csum_snd (fun y => cmul RS (g y) (A y x)) snd), numbered_snd. unfold S, fresh_sum. rewrite fold_csum.
      change (Csum_ (fun y => cmul RS (g y) (A y x)) els = cadd RS (c0 RS) (Csum_ (fun y => cmul RS (g y) (A y x)) els)). ring. }
    assert (E : Csum_ (fun ix => Csum_ (term R RS Ev wt V P p mc ix) (numbered els)) (numbered els) = Csum_ (fun x => cmul RS (W x) (cmul RS (S x) (cconj RS (S x)))) mc).
    { transitivity (Csum_ (fun ix => Csum_ (fun x => cmul RS (W x) (cmul RS (cmul RS (g (snd ix)) (A (snd ix) x)) (cconj RS (S x)))) mc) (numbered els)).
      - apply csum_ext. intros ix _. rewrite (csum_ext _ _ _ (fun jx _ => T ix jx)), csum_swap. apply csum_ext. intros x _.
        rewrite <- (csum_mul_l (W x)), <- csum_mul_l, <- csum_conj, ES. reflexivity.
      - rewrite csum_swap. apply csum_ext. intros x _. rewrite <- csum_mul_l, <- csum_mul_r, ES. reflexivity. }
    rewrite E. change (mean_intensity p els mc) with (Rsum (fun x => wt x * (fst (S x) ^ 2 + snd (S x) ^ 2)) mc / Rsum wt mc).
    rewrite (csum_ext _ (fun x => real (/ Rsum wt mc * (wt x * (fst (S x) ^ 2 + snd (S x) ^ 2))))) by (intros x _; unfold W; set (z := S x); clearbody z; cring).
    rewrite csum_real. cbn [fst cadd c0 real k0 kadd RS]. unfold Rdiv. generalize (/ Rsum wt mc). clearbody S. clear. intro r.
    rewrite Rplus_0_l. induction mc as [|x l IH]; cbn [Rsum fold_right]; [ring|].
    fold (Rsum (fun x => r * (wt x * (fst (S x) ^ 2 + snd (S x) ^ 2))) l) (Rsum (fun x => wt x * (fst (S x) ^ 2 + snd (S x) ^ 2)) l).
    rewrite IH. ring.
  Qed.

  Lemma rsum_nonneg {A} (f : A -> R) l : (forall x, In x l -> 0 <= f x) -> 0 <= Rsum f l.
  Proof. induction l as [|x l IH]; intro H; cbn [Rsum fold_right]; [lra|]. fold (Rsum f l). specialize (IH (fun y Hy => H y (or_intror Hy))). specialize (H x (or_introl eq_refl)). lra. Qed.
  Lemma mean_nonneg p els mc : (forall x, In x mc -> 0 <= wt x) -> 0 < Rsum wt mc -> 0 <= mean_intensity p els mc.
  Proof.
    intros H W. unfold mean_intensity. apply Rmult_le_pos; [|left; now apply Rinv_0_lt_compat]. apply rsum_nonneg. intros x Hx. specialize (H x Hx).
    set (z := fresh_sum R RS Ev V P p els x). pose proof (pow2_ge_0 (fst z)). pose proof (pow2_ge_0 (snd z)). apply Rmult_le_pos; lra.
  Qed.
End Norm.

(** ** Fit fractions *)
Section FF.
  Variables (nm g : list CR).
  Notation n := (List.length g).
  Hypothesis Hn : List.length nm = (n * n)%nat.
  Definition T (i j : nat) : CR := match norm_term R RS nm g i j with Ok v => v | _ => c0 RS end.
  Lemma term_ok i j : (i < n)%nat -> (j < n)%nat -> norm_term R RS nm g i j = Ok (T i j).
  Proof.
    intros Hi Hj. unfold T. unfold norm_term. destruct (nth_error g i) eqn:Ei; [|apply nth_error_None in Ei; lia]. destruct (nth_error g j) eqn:Ej; [|apply nth_error_None in Ej; lia].
    cbn [of_opt bind]. unfold norm_at. destruct (j <? i)%nat.
    - destruct (nth_error nm (j * n + i)) eqn:En; [reflexivity|apply nth_error_None in En; nia].
    - destruct (nth_error nm (i * n + j)) eqn:En; [reflexivity|apply nth_error_None in En; nia].
  Qed.
  Lemma re_sym i j : (i < n)%nat -> (j < n)%nat -> fst (T i j) = fst (T j i).
  Proof.
    intros Hi Hj. destruct (Nat.eq_dec i j) as [->|Ne]; [reflexivity|]. unfold T, norm_term.
    destruct (nth_error g i) as [gi|] eqn:Ei; [|apply nth_error_None in Ei; lia]. destruct (nth_error g j) as [gj|] eqn:Ej; [|apply nth_error_None in Ej; lia].
    cbn [of_opt bind]. unfold norm_at. destruct (Nat.ltb_spec j i), (Nat.ltb_spec i j); try lia.
    - destruct (nth_error nm (j * n + i)) eqn:En; [|apply nth_error_None in En; nia]. cbn. ring.
    - destruct (nth_error nm (i * n + j)) eqn:En; [|apply nth_error_None in En; nia]. cbn. ring.
  Qed.
  Definition S2 (is js : list nat) : R := Rsum (fun i => Rsum (fun j => fst (T i j)) js) is.
  Lemma rsum_add {A} (f h : A -> R) l : Rsum (fun x => f x + h x) l = Rsum f l + Rsum h l.
  Proof. induction l as [|x l IH]; cbn [Rsum fold_right]; [ring|]. fold (Rsum (fun x => f x + h x) l) (Rsum f l) (Rsum h l). rewrite IH. ring. Qed.
  Lemma rsum_app {A} (f : A -> R) a b : Rsum f (a ++ b) = Rsum f a + Rsum f b.
  Proof. induction a as [|x l IH]; cbn [Rsum fold_right app]; [symmetry; apply Rplus_0_l|]. fold (Rsum f (l ++ b)) (Rsum f b) (Rsum f l). rewrite IH. ring. Qed.
  Lemma rsum_ext {A} (f h : A -> R) l : (forall x, In x l -> f x = h x) -> Rsum f l = Rsum h l.
  Proof. induction l as [|x l IH]; intro H; [reflexivity|]. cbn [Rsum fold_right]. fold (Rsum f l) (Rsum h l). rewrite IH by (intros y Hy; apply H; now right). now rewrite H by now left. Qed.
  Lemma rsum_perm {A} (f : A -> R) l l' : Permutation l l' -> Rsum f l = Rsum f l'.
  Proof. induction 1; cbn [Rsum fold_right] in *; unfold Rsum in *; lra. Qed.
  Lemma s2_app_l a b js : S2 (a ++ b) js = S2 a js + S2 b js.
  Proof. apply rsum_app. Qed.
  Lemma s2_app_r is a b : S2 is (a ++ b) = S2 is a + S2 is b.
  Proof. unfold S2. rewrite <- rsum_add. apply rsum_ext. intros i _. apply rsum_app. Qed.
  Lemma s2_perm a a' b b' : Permutation a a' -> Permutation b b' -> S2 a b = S2 a' b'.
  Proof. intros Pa Pb. unfold S2. rewrite (rsum_perm _ a a' Pa). apply rsum_ext. intros i _. now apply rsum_perm. Qed.
  Lemma s2_sym a b : Forall (fun i => i < n)%nat a -> Forall (fun i => i < n)%nat b -> S2 a b = S2 b a.
  Proof.
    intros Ha Hb. unfold S2. induction Ha as [|i a Hi Ha IH]; cbn [Rsum fold_right].
    - induction Hb as [|j b Hj Hb IHb]; cbn [Rsum fold_right]; [reflexivity|]. unfold Rsum in IHb. rewrite <- IHb. ring.
    - fold (Rsum (fun i0 => Rsum (fun j => fst (T i0 j)) b) a). rewrite IH.
      rewrite (rsum_ext (fun i0 => fst (T i0 i) + fold_right (fun x s => fst (T i0 x) + s) 0 a) (fun j => fst (T i j) + Rsum (fun k => fst (T j k)) a)).
      + rewrite rsum_add. reflexivity.
      + intros j Hj. unfold Rsum. rewrite (re_sym i j); [reflexivity|assumption|]. now apply (proj1 (Forall_forall _ b) Hb).
  Qed.

  Lemma fold2 js : forall is acc, fst (fold_left (fun a x => fold_left (fun a y => cadd RS a (T x y)) js a) is acc) = fst acc + S2 is js.
  Proof.
    induction is as [|i is IH]; intro acc; cbn [fold_left]; [unfold S2; cbn [Rsum fold_right]; ring|]. rewrite IH. unfold S2. cbn [Rsum fold_right].
    assert (G : forall acc, fst (fold_left (fun a y => cadd RS a (T i y)) js acc) = fst acc + Rsum (fun j => fst (T i j)) js).
    { clear. induction js as [|j js IH]; intro acc; cbn [fold_left Rsum fold_right]; [ring|]. rewrite IH. cbn. unfold Rsum. ring. }
    rewrite G. unfold Rsum. ring.
  Qed.
  Lemma ff_norm_ok ns : Forall (fun i => i < n)%nat ns -> ff_norm R RS nm g ns = Ok (S2 ns ns).
  Proof.
    intro H. unfold ff_norm. rewrite (double_sum_ok R RS _ T) by (intros; apply term_ok; now apply (proj1 (Forall_forall _ ns) H)).
    cbn [bind]. f_equal. rewrite fold2. cbn. ring.
  Qed.
  Lemma ff_val_ok ns is js : Forall (fun i => i < n)%nat ns -> Forall (fun i => i < n)%nat is -> Forall (fun i => i < n)%nat js ->
    ff_val R RS nm g ns is js = Ok (S2 is js / S2 ns ns).
  Proof.
    intros H Hi Hj. unfold ff_val. rewrite (double_sum_ok R RS _ T) by (intros; apply term_ok; [now apply (proj1 (Forall_forall _ is) Hi)|now apply (proj1 (Forall_forall _ js) Hj)]).
    cbn [bind]. rewrite ff_norm_ok by assumption. cbn [bind]. f_equal. rewrite fold2. cbn. unfold Rdiv. ring.
  Qed.

  Fixpoint pair_sum (f : list nat -> list nat -> R) (gs : list (list nat)) : R :=
    match gs with [] => 0 | a :: gs' => Rsum (f a) gs' + pair_sum f gs' end.
  Lemma s2_concat_r is gs : S2 is (List.concat gs) = Rsum (S2 is) gs.
  Proof.
    induction gs as [|a gs IH]; cbn [List.concat Rsum fold_right]; [|rewrite s2_app_r, IH; reflexivity].
    unfold S2. clear. change (Rsum (fun _ : nat => 0) is = 0). induction is as [|i is IH]; [reflexivity|]. change (0 + Rsum (fun _ : nat => 0) is = 0). rewrite IH. ring.
  Qed.
  Lemma s2_groups gs : Forall (Forall (fun i => i < n)%nat) gs -> S2 (List.concat gs) (List.concat gs) = Rsum (fun a => S2 a a) gs + 2 * pair_sum S2 gs.
  Proof.
    induction 1 as [|a gs Ha Hg IH]; cbn [List.concat pair_sum Rsum fold_right]; [unfold S2; cbn [Rsum fold_right]; ring|].
    fold (Rsum (fun a => S2 a a) gs). rewrite s2_app_l, !s2_app_r, IH, (s2_sym (List.concat gs) a), s2_concat_r; [ring| |assumption].
    clear - Hg. induction Hg; cbn [List.concat]; [constructor|]. apply Forall_app. auto.
  Qed.
End FF.
