From Verif.Common Require Import Prelude.
From Verif.Expr Require Import Model Spec Proofs Term SimplifyProofs Derivative DerivativeSpec.
From Coq Require Import Reals Lra Field.
Local Open Scope R_scope.

Section DerivativeProofs.
  Variables (isZero isOne isAbsZero isNeg : R -> bool) (tval : R -> bool).
  Variable K : R -> Prop.
  Hypotheses (K0 : K 0) (K1 : K 1) (Ka : forall a b, K a -> K b -> K (a + b)) (Km : forall a b, K a -> K b -> K (a * b))
    (Ko : forall a, K a -> K (- a)) (Ki : True -> forall a, K a -> a <> 0 -> K (/ a))
    (TZ : forall a, K a -> isZero a = true -> a = 0) (TO : forall a, K a -> isOne a = true -> a = 1)
    (TA : forall a, K a -> isAbsZero a = true -> a = 0).
  Hypothesis Ku : forall u a b, K a -> uvalR u a = Some b -> K b.
  Notation ev := (eval R Rplus Rmult Rminus Rdiv eq0R bvalR uvalR tval).
  Notation good := (good R K True).
  Notation c v := (Const R (Some v)).
  Lemma E0 x : eq0R x = true <-> x = 0.
  Proof. unfold eq0R. destruct (Req_EM_T x 0); split; intro H; congruence. Qed.
  Lemma E0f x : x <> 0 -> eq0R x = false.
  Proof. intro H. destruct (eq0R x) eqn:E; [apply E0 in E; contradiction|reflexivity]. Qed.
  Notation dd := (d R 0 1 Rplus Rmult Rminus Ropp Rinv eq0R isZero isOne isAbsZero isNeg uvalR 2 (3 / 2)).
  Notation e_mul := (e_mul R 0 Rmult Rinv eq0R isZero isOne isAbsZero).
  Notation e_div := (e_div R 0 Rmult Rinv eq0R isZero isOne isAbsZero).
  Notation e_sub := (e_sub R 0 1 Rmult Rminus Ropp Rinv eq0R isZero isOne isAbsZero).
  Notation e_add := (e_add R 0 1 Rplus Rmult Rminus Ropp Rinv eq0R isZero isOne isAbsZero isNeg).
  Lemma good_c v : K v -> good (c v). Proof. intro H. exact H. Qed.
  Lemma K2 : K 2. Proof. replace 2 with (1 + 1) by ring. auto. Qed.
  Lemma K32 : K (3 / 2). Proof. unfold Rdiv. apply Km; [replace 3 with (1 + (1 + 1)) by ring; auto|]. apply Ki; [exact I|apply K2|lra]. Qed.
  Lemma good_u u e : u <> UConj -> good e -> good (e_unary R uvalR u e).
  Proof.
    intros U H. destruct e as [[x|]|n| | | | | | | |]; try (destruct u; exact I || contradiction).
    replace (e_unary R uvalR u (c x)) with (Const R (uvalR u x)) by (destruct u; reflexivity || contradiction).
    cbn. destruct (uvalR u x) eqn:E; [exact (Ku u x r H E)|exact I].
  Qed.
  Lemma ev_u u e rho x : u <> UConj -> ev rho e = Some x -> ev rho (e_unary R uvalR u e) = uvalR u x.
  Proof.
    intros U E. destruct e as [k|n| | | | | | | |]; try (destruct u; try contradiction; cbn [e_unary Model.eval]; cbn [Model.eval] in E; rewrite E; reflexivity).
    cbn [Model.eval] in E. injection E as <-. destruct u; reflexivity || contradiction.
  Qed.
  Lemma mul_at f A B e rho x y : good A -> good B -> e_mul f A B = Ok e -> ev rho A = Some x -> ev rho B = Some y -> good e /\ ev rho e = Some (x * y).
  Proof.
    intros GA GB E EA EB. destruct (proj1 (proj2 (mul_sound R 0 1 Rplus Rmult Rminus Ropp Rdiv Rinv Rfield eq0R E0 isZero isOne isAbsZero bvalR uvalR tval K True K0 Km Ki TZ TO TA f)) A B e GA GB E) as [G Re].
    split; [exact G|]. apply Re. rewrite EA, EB. reflexivity.
  Qed.
  Lemma div_at f A B e rho x y : good A -> good B -> e_div f A B = Ok e -> ev rho A = Some x -> ev rho B = Some y -> y <> 0 -> good e /\ ev rho e = Some (x / y).
  Proof.
    intros GA GB E EA EB NZ. destruct (proj2 (proj2 (mul_sound R 0 1 Rplus Rmult Rminus Ropp Rdiv Rinv Rfield eq0R E0 isZero isOne isAbsZero bvalR uvalR tval K True K0 Km Ki TZ TO TA f)) A B e I GA GB E) as [G Re].
    split; [exact G|]. apply Re. rewrite EA, EB. cbn. now rewrite (E0f y NZ).
  Qed.
  Lemma sub_at f A B e rho x y : good A -> good B -> e_sub f A B = Ok e -> ev rho A = Some x -> ev rho B = Some y -> good e /\ ev rho e = Some (x - y).
  Proof.
    intros GA GB E EA EB. destruct (sub_sound R 0 1 Rplus Rmult Rminus Ropp Rdiv Rinv Rfield eq0R E0 isZero isOne isAbsZero bvalR uvalR tval K True K0 K1 Ka Km Ko Ki TZ TO TA f A B e GA GB E) as [G Re].
    split; [exact G|]. apply Re. rewrite EA, EB. reflexivity.
  Qed.
  Lemma add_at f A B e rho x y : good A -> good B -> e_add f A B = Ok e -> ev rho A = Some x -> ev rho B = Some y -> good e /\ ev rho e = Some (x + y).
  Proof.
    intros GA GB E EA EB. destruct (proj2 (add_sound R 0 1 Rplus Rmult Rminus Ropp Rdiv Rinv Rfield eq0R E0 isZero isOne isAbsZero isNeg bvalR uvalR tval K True K0 K1 Ka Km Ko Ki TZ TO TA f) A B e GA GB E) as [G Re].
    split; [exact G|]. apply Re. rewrite EA, EB. reflexivity.
  Qed.
  Notation mulr := (mul_returns R 0 Rmult Rinv eq0R isZero isOne isAbsZero).
  Notation divr := (div_returns R 0 Rmult Rinv eq0R isZero isOne isAbsZero).
  Notation addr := (add_returns R 0 1 Rplus Rmult Rminus Ropp Rinv eq0R isZero isOne isAbsZero isNeg).
  Lemma subr A B : returns (fun f => e_sub f A B).
  Proof. destruct (sub_returns R 0 1 Rmult Rminus Ropp Rinv eq0R isZero isOne isAbsZero A B) as (f0 & x & E & _). exists f0, x. exact E. Qed.
  Lemma d_returns u a : returns (fun f => dd f u a).
  Proof.
    destruct u; cbn [d]; try apply returns_Ok; try apply divr; try apply mulr.
    - apply (returns_bind _ (fun f => e_div f (c 1))); [apply mulr|intro; apply divr].
    - apply (returns_bind _ (fun f => e_div f (c 1))); [apply mulr|intro; apply divr].
    - apply (returns_bind _ (fun f m => bind (e_sub f (c 1) m) (fun s => e_div f (c (- (1))) (e_unary R uvalR USqrt s)))); [apply mulr|intro m].
      apply (returns_bind _ (fun f s => e_div f (c (- (1))) (e_unary R uvalR USqrt s))); [apply subr|intro; apply divr].
    - apply (returns_bind _ (fun f m => bind (e_sub f (c 1) m) (fun s => e_div f (c 1) (e_unary R uvalR USqrt s)))); [apply mulr|intro m].
      apply (returns_bind _ (fun f s => e_div f (c 1) (e_unary R uvalR USqrt s))); [apply subr|intro; apply divr].
    - apply (returns_bind _ (fun f m => bind (e_add f (c 1) m) (e_div f (c 1)))); [apply mulr|intro m].
      apply (returns_bind _ (fun f => e_div f (c 1))); [apply addr|intro; apply divr].
    - apply (returns_bind _ (fun f => e_div f (c (- (1))))); [apply mulr|intro; apply divr].
  Qed.
  (** The value of d(). *)
  Definition dvalue (u : unop) (x : R) : R :=
    match u with
    | ULog => 1 / x | USqrt => 1 / (2 * sqrt x) | UExp => exp x | UCos => - (1) * sin x | USin => cos x | UTan => 1 / (cos x * cos x)
    | UACos => 1 / sqrt (1 - x * x) | UASin => - (1) / sqrt (1 - x * x) | UATan => 1 / (1 + x * x) | UISqrt => - (1) / (2 * Rpower x (3 / 2))
    | _ => 0
    end.
  Lemma sq1 x : -1 < x < 1 -> 0 < 1 - x * x. Proof. intro H. nra. Qed.
  Lemma d_value u a f e rho x : good a -> dd f u a = Ok e -> ev rho a = Some x -> inner u x -> ev rho e = Some (dvalue u x).
  Proof.
    intros G E Ea Hi. destruct u; cbn [d] in E; cbn [inner dvalue] in *; try (injection E as <-; reflexivity).
    - destruct (div_at f (c 1) a e rho 1 x) as [_ R]; auto. lra.
    - apply bind_Ok in E as (m & E1 & E).
      assert (S : ev rho (e_unary R uvalR USqrt a) = Some (sqrt x)).
      { rewrite (ev_u _ _ _ x) by (discriminate || exact Ea). unfold uvalR, defined. destruct (Rle_dec 0 x); [reflexivity|lra]. }
      destruct (mul_at f (c 2) (e_unary R uvalR USqrt a) m rho 2 (sqrt x)) as [Gm Em]; auto; [exact K2|now apply good_u|].
      destruct (div_at f (c 1) m e rho 1 (2 * sqrt x)) as [_ R]; auto. pose proof (sqrt_lt_R0 x Hi). lra.
    - assert (X : e = e_unary R uvalR UExp a) by congruence. rewrite X, (ev_u _ _ _ x) by (discriminate || exact Ea). reflexivity.
    - assert (X : e = e_unary R uvalR UCos a) by congruence. rewrite X, (ev_u _ _ _ x) by (discriminate || exact Ea). reflexivity.
    - unfold Model.e_neg in E. assert (S : ev rho (e_unary R uvalR USin a) = Some (sin x)) by (rewrite (ev_u _ _ _ x) by (discriminate || exact Ea); reflexivity).
      destruct (mul_at f (c (- (1))) (e_unary R uvalR USin a) e rho (- (1)) (sin x)) as [_ R]; auto; [apply good_c; auto|apply good_u; [discriminate|exact G]].
    - apply bind_Ok in E as (m & E1 & E). assert (S : ev rho (e_unary R uvalR UCos a) = Some (cos x)) by (rewrite (ev_u _ _ _ x) by (discriminate || exact Ea); reflexivity).
      assert (Gu : good (e_unary R uvalR UCos a)) by (apply good_u; [discriminate|exact G]).
      destruct (mul_at f _ _ m rho _ _ Gu Gu E1 S S) as [Gm Em]. destruct (div_at f (c 1) m e rho 1 (cos x * cos x)) as [_ R]; auto.
    - apply bind_Ok in E as (m & E1 & E). apply bind_Ok in E as (s & E2 & E). destruct (mul_at f _ _ m rho _ _ G G E1 Ea Ea) as [Gm Em].
      destruct (sub_at f (c 1) m s rho 1 (x * x)) as [Gs Es]; auto. pose proof (sq1 x Hi) as P.
      assert (S : ev rho (e_unary R uvalR USqrt s) = Some (sqrt (1 - x * x))).
      { rewrite (ev_u USqrt s rho _ ltac:(discriminate) Es). unfold uvalR, defined. destruct (Rle_dec 0 (1 - x * x)); [reflexivity|lra]. }
      destruct (div_at f (c (- (1))) (e_unary R uvalR USqrt s) e rho (- (1)) (sqrt (1 - x * x))) as [_ R]; auto; [apply good_c; auto|apply good_u; [discriminate|exact Gs]|]. pose proof (sqrt_lt_R0 _ P). lra.
    - apply bind_Ok in E as (m & E1 & E). apply bind_Ok in E as (s & E2 & E). destruct (mul_at f _ _ m rho _ _ G G E1 Ea Ea) as [Gm Em].
      destruct (sub_at f (c 1) m s rho 1 (x * x)) as [Gs Es]; auto. pose proof (sq1 x Hi) as P.
      assert (S : ev rho (e_unary R uvalR USqrt s) = Some (sqrt (1 - x * x))).
      { rewrite (ev_u USqrt s rho _ ltac:(discriminate) Es). unfold uvalR, defined. destruct (Rle_dec 0 (1 - x * x)); [reflexivity|lra]. }
      destruct (div_at f (c 1) (e_unary R uvalR USqrt s) e rho 1 (sqrt (1 - x * x))) as [_ R]; auto; [apply good_u; [discriminate|exact Gs]|]. pose proof (sqrt_lt_R0 _ P). lra.
    - apply bind_Ok in E as (m & E1 & E). apply bind_Ok in E as (s & E2 & E). destruct (mul_at f _ _ m rho _ _ G G E1 Ea Ea) as [Gm Em].
      destruct (add_at f (c 1) m s rho 1 (x * x)) as [Gs Es]; auto. destruct (div_at f (c 1) s e rho 1 (1 + x * x)) as [_ R]; auto. nra.
    - apply bind_Ok in E as (m & E1 & E).
      assert (S : ev rho (Bin R BPow a (c (3 / 2))) = Some (Rpower x (3 / 2))).
      { cbn [Model.eval]. rewrite Ea. cbn. destruct (Rlt_dec 0 x); [reflexivity|lra]. }
      destruct (mul_at f (c 2) (Bin R BPow a (c (3 / 2))) m rho 2 (Rpower x (3 / 2))) as [Gm Em]; auto; [exact K2|exact I|].
      destruct (div_at f (c (- (1))) m e rho (- (1)) (2 * Rpower x (3 / 2))) as [_ R]; auto; [apply good_c; auto|]. assert (0 < Rpower x (3 / 2)) by apply exp_pos. lra.
  Qed.
End DerivativeProofs.
