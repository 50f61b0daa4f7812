From Coq Require Import Reals Lra.
From Verif.Errors Require Import Model Spec.
Local Open Scope R_scope.

Lemma over_ext {A} (l : list A) f g : (forall x, In x l -> f x = g x) -> over l f = over l g.
Proof. induction l as [|a l IH]; intro H; [reflexivity|]. cbn [over]. rewrite IH by (intros; apply H; now right). now rewrite (H a (or_introl eq_refl)). Qed.
Lemma over_app {A} (l k : list A) f : over (l ++ k) f = over l f + over k f.
Proof. induction l as [|a l IH]; cbn [app over]; [ring|]. rewrite IH. ring. Qed.
Lemma over_zero {A} (l : list A) f : (forall x, In x l -> f x = 0) -> over l f = 0.
Proof. induction l as [|a l IH]; intro H; [reflexivity|]. cbn [over]. rewrite IH by (intros; apply H; now right). rewrite (H a (or_introl eq_refl)). ring. Qed.
Lemma over_plus {A} (l : list A) f g : over l (fun x => f x + g x) = over l f + over l g.
Proof. induction l as [|a l IH]; cbn [over]; [ring|]. rewrite IH. ring. Qed.
Lemma over_scale {A} (l : list A) k f : over l (fun x => k * f x) = k * over l f.
Proof. induction l as [|a l IH]; cbn [over]; [ring|]. rewrite IH. ring. Qed.
Lemma over_scale_r {A} (l : list A) k f : over l (fun x => f x * k) = over l f * k.
Proof. induction l as [|a l IH]; cbn [over]; [ring|]. rewrite IH. ring. Qed.
Lemma over_swap {A B} (l : list A) (k : list B) f : over l (fun x => over k (fun y => f x y)) = over k (fun y => over l (fun x => f x y)).
Proof. induction l as [|a l IH]; cbn [over]; [symmetry; now apply over_zero|]. rewrite IH. now rewrite <- over_plus. Qed.
Lemma over_map {A B} (g : A -> B) (l : list A) f : over (map g l) f = over l (fun x => f (g x)).
Proof. induction l as [|a l IH]; cbn [map over]; [reflexivity|]. now rewrite IH. Qed.
Lemma upto_S n : upto (S n) = upto n ++ [n].
Proof. unfold upto. now rewrite seq_S. Qed.
Lemma in_upto n i : In i (upto n) <-> (i < n)%nat.
Proof. unfold upto. rewrite in_seq. lia. Qed.
Lemma sum_over n f : sum n f = over (upto n) f.
Proof. induction n as [|n IH]; [reflexivity|]. rewrite upto_S, over_app. cbn [sum over]. rewrite IH. ring. Qed.
Lemma over_delta n j f : (j < n)%nat -> over (upto n) (fun i => if Nat.eqb i j then f i else 0) = f j.
Proof.
  induction n as [|n IH]; intro L; [lia|]. rewrite upto_S, over_app. cbn [over]. destruct (Nat.eqb_spec n j) as [E | N].
  - subst j. rewrite over_zero; [ring|]. intros x I. apply in_upto in I. destruct (Nat.eqb_spec x n); [lia|reflexivity].
  - rewrite IH by lia. ring.
Qed.

(** sums of numbers *)
Lemma sum_some n f g : (forall i, (i < n)%nat -> f i = Some (g i)) -> sum_ n f = Some (over (upto n) g).
Proof.
  induction n as [|n IH]; intro H; [reflexivity|]. cbn [sum_]. rewrite IH by (intros; apply H; lia). rewrite (H n) by lia. unfold add_, lift2. rewrite upto_S, over_app. cbn [over]. f_equal. ring.
Qed.
Lemma sum_none n f i : (i < n)%nat -> f i = None -> sum_ n f = None.
Proof.
  induction n as [|n IH]; intros L H; [lia|]. cbn [sum_]. destruct (Nat.eq_dec i n) as [-> | N]; [rewrite H; now destruct (sum_ n f)|]. now rewrite IH by (auto; lia).
Qed.
Lemma sum_ext_ n f g : (forall i, (i < n)%nat -> f i = g i) -> sum_ n f = sum_ n g.
Proof. induction n as [|n IH]; intro H; [reflexivity|]. cbn [sum_]. rewrite IH by (intros; apply H; lia). now rewrite (H n) by lia. Qed.

(** quadratic forms *)
Section Form.
  Variables (n : nat) (C : nat -> nat -> R).
  Notation F := (form n C).
  Lemma form_ext x y x' y' : (forall i, (i < n)%nat -> x i = x' i) -> (forall i, (i < n)%nat -> y i = y' i) -> F x y = F x' y'.
  Proof. intros H K. apply over_ext. intros i I. apply over_ext. intros j J. apply in_upto in I, J. now rewrite H, K. Qed.
  Lemma form_plus_l x x' y : F (fun i => x i + x' i) y = F x y + F x' y.
  Proof. unfold form. rewrite <- over_plus. apply over_ext. intros i _. rewrite <- over_plus. apply over_ext. intros; ring. Qed.
  Lemma form_plus_r x y y' : F x (fun i => y i + y' i) = F x y + F x y'.
  Proof. unfold form. rewrite <- over_plus. apply over_ext. intros i _. rewrite <- over_plus. apply over_ext. intros; ring. Qed.
  Lemma form_scale_l k x y : F (fun i => k * x i) y = k * F x y.
  Proof. unfold form. rewrite <- over_scale. apply over_ext. intros i _. rewrite <- over_scale. apply over_ext. intros; ring. Qed.
  Lemma form_scale_r k x y : F x (fun i => k * y i) = k * F x y.
  Proof. unfold form. rewrite <- over_scale. apply over_ext. intros i _. rewrite <- over_scale. apply over_ext. intros; ring. Qed.
  Lemma form_sym x y : symmetric n C -> F x y = F y x.
  Proof. intro S. unfold form. rewrite over_swap. apply over_ext. intros j J. apply over_ext. intros i I. apply in_upto in I, J. rewrite (S i j) by assumption. ring. Qed.
  Lemma form_square x y t : symmetric n C -> F (fun i => x i + t * y i) (fun i => x i + t * y i) = F x x + 2 * t * F x y + t * t * F y y.
  Proof.
    intro S. rewrite (form_plus_l x (fun i => t * y i)), !(form_plus_r _ x (fun i => t * y i)), !form_scale_l, !form_scale_r. rewrite (form_sym y x S). ring.
  Qed.
  Lemma cauchy x y : symmetric n C -> nonnegative n C -> F x y * F x y <= F x x * F y y.
  Proof.
    intros S P. pose proof (P y) as Py. pose proof (P x) as Px.
    assert (Q : forall t, 0 <= F x x + 2 * t * F x y + t * t * F y y) by (intro t; rewrite <- form_square by exact S; apply P).
    destruct (Req_dec (F y y) 0) as [Z | N].
    - rewrite Z in *. destruct (Req_dec (F x y) 0) as [Z' | N']; [rewrite Z'; lra|]. exfalso. specialize (Q (- (F x x + 1) / (2 * F x y))).
      replace (F x x + 2 * (- (F x x + 1) / (2 * F x y)) * F x y + - (F x x + 1) / (2 * F x y) * (- (F x x + 1) / (2 * F x y)) * 0) with (-1) in Q by (field; assumption). lra.
    - assert (Pos : 0 < F y y) by lra. specialize (Q (- F x y / F y y)).
      replace (F x x + 2 * (- F x y / F y y) * F x y + - F x y / F y y * (- F x y / F y y) * F y y) with ((F x x * F y y - F x y * F x y) / F y y) in Q by (field; assumption).
      apply (Rmult_le_compat_r (F y y)) in Q; [|lra]. unfold Rdiv in Q. rewrite Rmult_assoc, Rinv_l in Q by assumption. lra.
  Qed.
End Form.
