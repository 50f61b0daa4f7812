From Verif.Common Require Import Prelude.
From Verif.Expr Require Import Model Spec Proofs Term Derivative DerivativeSpec DerivativeProofs.
From Coq Require Import Reals Ratan Lra.
Local Open Scope R_scope.

(** d() of [u] at [a], over the real numbers. *)
Definition dR isZero isOne isAbsZero isNeg := d R 0 1 Rplus Rmult Rminus Ropp Rinv eq0R isZero isOne isAbsZero isNeg uvalR 2 (3 / 2).
Definition evR tval rho := eval R Rplus Rmult Rminus Rdiv eq0R bvalR uvalR tval rho.
Definition right_derivative (u : unop) : Prop :=
  match u with ULog | USqrt | UExp | USin | UCos | UTan | UATan | UISqrt | UImag => True | _ => False end.

Lemma d_right u x : right_derivative u -> inner u x -> derivable_pt_lim (func u) x (dvalue u x).
Proof.
  intros H I. destruct u; try destruct H; cbn [inner dvalue] in *.
  - replace (1 / x) with (/ x) by (field; lra). now apply derivable_pt_lim_ln.
  - assert (sqrt x <> 0) by (pose proof (sqrt_lt_R0 x I); lra). replace (1 / (2 * sqrt x)) with (/ (2 * sqrt x)) by (field; assumption). now apply derivable_pt_lim_sqrt.
  - apply derivable_pt_lim_exp.
  - apply derivable_pt_lim_sin.
  - replace (- (1) * sin x) with (- sin x) by ring. apply derivable_pt_lim_cos.
  - replace (1 / (cos x * cos x)) with ((cos x * cos x - - sin x * sin x) / (cos x)²).
    + exact (derivable_pt_lim_div sin cos x (cos x) (- sin x) (derivable_pt_lim_sin x) (derivable_pt_lim_cos x) I).
    + unfold Rsqr. pose proof (sin2_cos2 x) as T. unfold Rsqr in T. replace (cos x * cos x - - sin x * sin x) with (sin x * sin x + cos x * cos x) by ring. now rewrite T.
  - replace (1 / (1 + x * x)) with (/ (1 + x ^ 2)) by (field; nra). apply derivable_pt_lim_atan.
  - apply derivable_pt_lim_const.
  - pose proof (sqrt_lt_R0 x I) as S. assert (P : Rpower x (3 / 2) = x * sqrt x).
    { replace (3 / 2) with (1 + / 2) by field. rewrite Rpower_plus, Rpower_1, Rpower_sqrt by exact I. reflexivity. }
    rewrite P. replace (- (1) / (2 * (x * sqrt x))) with ((0 * sqrt x - / (2 * sqrt x) * 1) / (sqrt x)²).
    + assert (D := derivable_pt_lim_div (fct_cte 1) sqrt x 0 (/ (2 * sqrt x)) (derivable_pt_lim_const 1 x) (derivable_pt_lim_sqrt x I) ltac:(lra)).
      intros eps He. destruct (D eps He) as [dl Hd]. exists dl. intros h Hh Hl. specialize (Hd h Hh Hl). unfold div_fct, fct_cte in Hd. cbn [func].
      replace (/ sqrt (x + h)) with (1 / sqrt (x + h)) by (unfold Rdiv; ring). replace (/ sqrt x) with (1 / sqrt x) by (unfold Rdiv; ring). exact Hd.
    + rewrite Rsqr_sqrt by lra. field. lra.
Qed.

(** ** C25 *)
(** The full claim is for every unary function. It is proved for the logarithm, square root, exponential, sine, cosine,
    tangent, arctangent, reciprocal square root and imaginary part, on real arguments, with exact tests against 0 and 1; it is
    false for arcsine, arccosine, absolute value, norm, real part and conjugate. The logarithm of the gamma function is not
    treated. *)
Theorem C25_derivative_partial : forall isZero isOne isAbsZero isNeg tval,
  (forall a, isZero a = true -> a = 0) -> (forall a, isOne a = true -> a = 1) -> (forall a, isAbsZero a = true -> a = 0) ->
  forall u, right_derivative u -> forall a rho x, evR tval rho a = Some x -> inner u x ->
  exists f0 e y, (forall f, (f0 <= f)%nat -> dR isZero isOne isAbsZero isNeg f u a = Ok e) /\ evR tval rho e = Some y /\ derivable_pt_lim (func u) x y.
Proof.
  intros isZero isOne isAbsZero isNeg tval TZ TO TA u Hu a rho x Ea I.
  destruct (d_returns isZero isOne isAbsZero isNeg u a) as (f0 & e & E). exists f0, e, (dvalue u x). split; [exact E|]. split; [|now apply d_right].
  assert (G : forall e : expr R, good R (fun _ => True) True e) by (induction e0; cbn; auto; destruct c; exact Logic.I).
  apply (d_value isZero isOne isAbsZero isNeg tval (fun _ => True)) with (f := f0) (a := a); auto.
Qed.
Print Assumptions C25_derivative_partial.
(** sqrt(2 x) at x = 2, and its tests. *)
Example C25_example : evR (fun _ => true) (fun _ => 2) (Product R (Const R (Some 2)) (Param R (S_ "x"))) = Some 4 /\ inner USqrt 4 /\
  (forall a, (if Req_EM_T a 0 then true else false) = true -> a = 0).
Proof. split; [unfold evR; cbn; f_equal; ring|]. split; [cbn; lra|]. intros a H. destruct (Req_EM_T a 0); [assumption|discriminate]. Qed.

Lemma d_at tval u x f e : dR eq0R (fun a => eq0R (a - 1)) eq0R (fun _ => false) f u (Param R (S_ "x")) = Ok e -> inner u x ->
  evR tval (fun _ => x) e = Some (dvalue u x).
Proof.
  intros E I. assert (G : forall e : expr R, good R (fun _ => True) True e) by (induction e0; cbn; auto; destruct c; exact Logic.I).
  refine (d_value eq0R (fun a => eq0R (a - 1)) eq0R (fun _ => false) tval (fun _ => True) _ _ _ _ _ _ _ _ _ _ u (Param R (S_ "x")) f e (fun _ => x) x (G _) E eq_refl I); auto.
  - intros a _ H. now apply E0.
  - intros a _ H. apply E0 in H. lra.
  - intros a _ H. now apply E0.
Qed.
Definition wrong (u : unop) : Prop := exists x y f e, inner u x /\ dR eq0R (fun a => eq0R (a - 1)) eq0R (fun _ => false) f u (Param R (S_ "x")) = Ok e /\
  evR (fun _ => true) (fun _ => x) e = Some y /\ ~ derivable_pt_lim (func u) x y.
Lemma wrong_at u x y : inner u x -> derivable_pt_lim (func u) x y -> y <> dvalue u x -> wrong u.
Proof.
  intros I D N. destruct (d_returns eq0R (fun a => eq0R (a - 1)) eq0R (fun _ => false) u (Param R (S_ "x"))) as (f0 & e & E).
  exists x, (dvalue u x), f0, e. split; [exact I|]. split; [exact (E f0 (le_n _))|]. split; [exact (d_at _ _ _ _ _ (E f0 (le_n _)) I)|].
  intro D'. exact (N (uniqueness_limite _ _ _ _ D D')).
Qed.
Lemma asin0 : derivable_pt_lim asin 0 1.
Proof.
  assert (X : derive_pt asin 0 (derivable_pt_asin 0 ltac:(lra)) = 1) by (rewrite derive_pt_asin, Rsqr_0, Rminus_0_r, sqrt_1; field).
  exact (derive_pt_eq_1 _ _ _ _ X).
Qed.
Lemma acos0 : derivable_pt_lim acos 0 (- (1)).
Proof.
  assert (X : derive_pt acos 0 (derivable_pt_acos 0 ltac:(lra)) = - (1)) by (rewrite derive_pt_acos, Rsqr_0, Rminus_0_r, sqrt_1; field).
  exact (derive_pt_eq_1 _ _ _ _ X).
Qed.
(** The derivatives of arcsine and arccosine have the wrong sign: at 0 they give -1 and 1. *)
Theorem C25_arcsine_refuted : wrong UASin /\ wrong UACos.
Proof.
  split.
  - apply (wrong_at _ 0 1); [cbn; lra|exact asin0|]. cbn. rewrite Rmult_0_l, Rminus_0_r, sqrt_1. lra.
  - apply (wrong_at _ 0 (- (1))); [cbn; lra|exact acos0|]. cbn. rewrite Rmult_0_l, Rminus_0_r, sqrt_1. lra.
Qed.
Print Assumptions C25_arcsine_refuted.
(** The derivatives of the absolute value, the norm, the real part and the conjugate are 0. *)
Theorem C25_zero_refuted : wrong UAbs /\ wrong UNorm /\ wrong UReal /\ wrong UConj.
Proof.
  split; [|split; [|split]].
  - apply (wrong_at _ 1 1); [cbn; lra|apply Rabs_derive_1; lra|cbn; lra].
  - apply (wrong_at _ 1 (1 * id 1 + id 1 * 1)); [exact I|exact (derivable_pt_lim_mult id id 1 1 1 (derivable_pt_lim_id 1) (derivable_pt_lim_id 1))|unfold id; cbn; lra].
  - apply (wrong_at _ 1 1); [exact I|exact (derivable_pt_lim_id 1)|cbn; lra].
  - apply (wrong_at _ 1 1); [exact I|exact (derivable_pt_lim_id 1)|cbn; lra].
Qed.
Print Assumptions C25_zero_refuted.
