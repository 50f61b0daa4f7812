From Verif.Common Require Import Prelude.
From Verif.Expr Require Import Model Spec Proofs Term Print PrintSpec PrintProofs Simplify SimplifyProofs PropsPrint.
From Coq Require Import Field QArith Qcanon Permutation.

Local Open Scope nat_scope.

(** Conjugation as used by the expansion: it keeps [K], is additive and leaves 0 alone. *)
Definition conjugation V v0 add (uval : unop -> V -> option V) (K : V -> Prop) : Prop :=
  (forall a b, K a -> uval UConj a = Some b -> K b) /\ (forall a b, lift2 V add (uval UConj a) (uval UConj b) = uval UConj (add a b)) /\ uval UConj v0 = Some v0.

(** Two trees with the same text have the same value, if the text is faithful. *)
Lemma text_faithful V (v0 v1 : V) add mul sub opp div inv (FT : field_theory v0 v1 add mul sub opp div inv eq) eq0
  (E0 : forall x, eq0 x = true <-> x = v0) bval uval tval shown var apply call un bin :
  same_meaning V v1 add mul sub div eq0 bval uval apply call un bin ->
  forall a b, nodes V (fun c => shown c = c) un bin (fun k x => forall rho, var rho k = eval V add mul sub div eq0 bval uval tval rho x) a ->
    nodes V (fun c => shown c = c) un bin (fun k x => forall rho, var rho k = eval V add mul sub div eq0 bval uval tval rho x) b ->
    print V v1 shown a = print V v1 shown b -> forall rho, eval V add mul sub div eq0 bval uval tval rho a = eval V add mul sub div eq0 bval uval tval rho b.
Proof.
  intros SM a b Ha Hb E rho.
  assert (W : forall e, nodes V (fun c => shown c = c) un bin (fun k x => forall rho, var rho k = eval V add mul sub div eq0 bval uval tval rho x) e ->
    nodes V (fun c => shown c = c) un bin (fun k x => var rho k = eval V add mul sub div eq0 bval uval tval rho x) e).
  { induction e; cbn [nodes]; intuition. }
  pose proof (C20_text_partial V v0 v1 add mul sub opp div inv FT eq0 E0 bval uval tval shown rho (var rho) apply call un bin SM) as R.
  pose proof (R a (W a Ha)) as Ra. pose proof (R b (W b Hb)) as Rb. rewrite E in Ra. exact (C20_unambiguous _ _ _ _ _ _ _ _ _ Ra Rb).
Qed.

(** ** C22 *)
(** The full claim is for every expression. Proved: where every constant of [K] is printed exactly, for sums, products and
    quotients (with no quotient in a divisor) of constants of [K], parameters, functions, conditions and sub-expressions.
    Missing: powers and the other binary nodes at the top, see below, and quotients in divisors. As in C19 the tests against
    0 and 1 make no mistake on [K]. *)
Theorem C22_exact_text_partial : forall V (v0 v1 : V) add mul sub opp div inv (FT : field_theory v0 v1 add mul sub opp div inv eq) eq0
  (E0 : forall x, eq0 x = true <-> x = v0) isZero isOne isAbsZero isNeg bval uval tval shown var apply call (un : unop -> Prop) bin (K : V -> Prop),
  subring V v0 v1 add mul opp K -> inverses V v0 inv K True -> exact_on V K isZero v0 -> exact_on V K isOne v1 -> exact_on V K isAbsZero v0 -> isOne v1 = true ->
  conjugation V v0 add uval K -> un UConj -> same_meaning V v1 add mul sub div eq0 bval uval apply call un bin -> (forall c, K c -> shown c = c) ->
  forall same_text sort_factors sort_terms, (forall a b, same_text a b = true -> a = b) -> (forall l, Permutation l (sort_factors l)) -> (forall l, Permutation l (sort_terms l)) ->
  forall e, nodes V K un bin (fun k x => forall rho, var rho k = eval V add mul sub div eq0 bval uval tval rho x) e -> expandable V e ->
  exists f0 e', (forall f, f0 <= f -> Simplify V v0 v1 add mul sub opp inv eq0 isZero isOne isAbsZero isNeg uval (list (Print.tok V)) (print V v1 shown) same_text sort_factors sort_terms f e = Ok e') /\
    forall rho v, (forall n, uval UConj (rho n) = Some (rho n)) ->
      eval V add mul sub div eq0 bval uval tval rho e = Some v -> eval V add mul sub div eq0 bval uval tval rho e' = Some v.
Proof.
  intros V v0 v1 add mul sub opp div inv FT eq0 E0 isZero isOne isAbsZero isNeg bval uval tval shown var apply call un bin K (K0 & K1 & Ka & Km & Ko) Ki TZ TO TA T1
    (C1 & C2 & C3) UC SM SH same_text sf st ST PF PT e He Xe.
  destruct (simplify_returns V v0 v1 add mul sub opp inv eq0 isZero isOne isAbsZero isNeg uval (list (Print.tok V)) (print V v1 shown) same_text sf st e) as (f0 & e' & E).
  exists f0, e'. split; [exact E|]. specialize (E f0 (le_n _)).
  set (H := nodes V K un bin (fun k x => forall rho, var rho k = eval V add mul sub div eq0 bval uval tval rho x)) in *.
  assert (Hgood : forall x, H x -> good V K True x).
  { unfold H. induction x; cbn [nodes good]; intuition. }
  assert (Hher : hereditary V H K True).
  { unfold hereditary, H. cbn [nodes]. repeat split; intuition. }
  assert (W : forall x, H x -> nodes V (fun c => shown c = c) un bin (fun k y => forall rho, var rho k = eval V add mul sub div eq0 bval uval tval rho y) x).
  { unfold H. induction x; cbn [nodes]; intuition. destruct c; auto. }
  assert (TX : forall a b, H a -> H b -> same_text (print V v1 shown a) (print V v1 shown b) = true -> forall rho, eval V add mul sub div eq0 bval uval tval rho a = eval V add mul sub div eq0 bval uval tval rho b).
  { intros a b Ha Hb S. exact (text_faithful V v0 v1 add mul sub opp div inv FT eq0 E0 bval uval tval shown var apply call un bin SM a b (W a Ha) (W b Hb) (ST _ _ S)). }
  pose proof (simplify_ok V v0 v1 add mul sub opp div inv FT eq0 E0 isZero isOne isAbsZero isNeg bval uval tval K True K0 K1 Ka Km Ko Ki TZ TO TA H Hgood Hher T1 C1 C2 C3
    (list (Print.tok V)) (print V v1 shown) same_text H TX sf PF st PT f0 e e' He Xe
    (keys_H V v0 v1 add mul sub opp div inv FT eq0 E0 isZero isOne isAbsZero isNeg bval uval tval K True K0 K1 Ka Km Ko Ki TZ TO TA H Hgood Hher T1 C1 C2 C3 H sf PF f0 e (fun x h => h) He Xe) E) as [_ R].
  intros rho v RP Ev. exact (R rho RP v Ev).
Qed.
Print Assumptions C22_exact_text_partial.
(** Polynomials in parameters and functions whose own constants are printed exactly: the coefficients need not be. *)
Theorem C22_polynomial_partial : forall V (v0 v1 : V) add mul sub opp div inv (FT : field_theory v0 v1 add mul sub opp div inv eq) eq0
  (E0 : forall x, eq0 x = true <-> x = v0) isZero isOne isAbsZero isNeg bval uval tval shown var apply call un bin (K : V -> Prop),
  subring V v0 v1 add mul opp K -> exact_on V K isZero v0 -> exact_on V K isOne v1 -> exact_on V K isAbsZero v0 -> isOne v1 = true ->
  conjugation V v0 add uval K -> same_meaning V v1 add mul sub div eq0 bval uval apply call un bin -> shown v1 = v1 ->
  forall same_text sort_factors sort_terms, (forall a b, same_text a b = true -> a = b) -> (forall l, Permutation l (sort_factors l)) -> (forall l, Permutation l (sort_terms l)) ->
  forall e, good V K False e -> polynomial V (nodes V (fun c => shown c = c) un bin (fun k x => forall rho, var rho k = eval V add mul sub div eq0 bval uval tval rho x)) e ->
  exists f0 e', (forall f, f0 <= f -> Simplify V v0 v1 add mul sub opp inv eq0 isZero isOne isAbsZero isNeg uval (list (Print.tok V)) (print V v1 shown) same_text sort_factors sort_terms f e = Ok e') /\
    forall rho v, (forall n, uval UConj (rho n) = Some (rho n)) ->
      eval V add mul sub div eq0 bval uval tval rho e = Some v -> eval V add mul sub div eq0 bval uval tval rho e' = Some v.
Proof.
  intros V v0 v1 add mul sub opp div inv FT eq0 E0 isZero isOne isAbsZero isNeg bval uval tval shown var apply call un bin K (K0 & K1 & Ka & Km & Ko) TZ TO TA T1
    (C1 & C2 & C3) SM S1 same_text sf st ST PF PT e He Pe.
  destruct (simplify_returns V v0 v1 add mul sub opp inv eq0 isZero isOne isAbsZero isNeg uval (list (Print.tok V)) (print V v1 shown) same_text sf st e) as (f0 & e' & E).
  exists f0, e'. split; [exact E|]. specialize (E f0 (le_n _)).
  assert (Ki : inverses V v0 inv K False) by (intros []).
  set (H := good_conj V K False).
  set (Q := nodes V (fun c => shown c = c) un bin (fun k x => forall rho, var rho k = eval V add mul sub div eq0 bval uval tval rho x)) in *.
  assert (Hgood : forall x, H x -> good V K False x).
  { unfold H. induction x; cbn [good_conj good]; intuition. }
  assert (Hher : hereditary V H K False).
  { unfold hereditary, H. cbn [good_conj]. repeat split; intuition. }
  assert (TX : forall a b, Q a -> Q b -> same_text (print V v1 shown a) (print V v1 shown b) = true -> forall rho, eval V add mul sub div eq0 bval uval tval rho a = eval V add mul sub div eq0 bval uval tval rho b).
  { intros a b Ha Hb S. exact (text_faithful V v0 v1 add mul sub opp div inv FT eq0 E0 bval uval tval shown var apply call un bin SM a b Ha Hb (ST _ _ S)). }
  assert (HHe : H e).
  { clear E. induction e as [c|n|l IHl r IHr|l IHl r IHr|l IHl r IHr|l IHl r IHr|b l IHl r IHr|u a IHa|c IHc a IHa b IHb|k a IHa]; cbn [polynomial good] in *; unfold H in *; cbn [good_conj]; intuition.
    destruct u; try exact I. destruct Pe. }
  assert (Xe : expandable V e).
  { clear E He HHe. induction e as [c|n|l IHl r IHr|l IHl r IHr|l IHl r IHr|l IHl r IHr|b l IHl r IHr|u a IHa|c IHc a IHa b IHb|k a IHa]; cbn [polynomial expandable] in *; intuition. }
  pose proof (simplify_ok V v0 v1 add mul sub opp div inv FT eq0 E0 isZero isOne isAbsZero isNeg bval uval tval K False K0 K1 Ka Km Ko Ki TZ TO TA H Hgood Hher T1 C1 C2 C3
    (list (Print.tok V)) (print V v1 shown) same_text Q TX sf PF st PT f0 e e' HHe Xe
    (keys_monomial V v0 v1 add mul sub opp div inv FT eq0 isZero isOne isAbsZero isNeg uval K K1 TA T1 Q sf PF S1 (fun a b qa qb => conj qa qb) f0 e Pe) E) as [_ R].
  intros rho v RP Ev. exact (R rho RP v Ev).
Qed.
Print Assumptions C22_polynomial_partial.

(** An instance over the rational numbers. *)
From Verif.Expr Require Props.
Definition suval (u : unop) (x : Qc) : option Qc := match u with UReal | UConj => Some x | _ => None end.
Definition scall (f : unop + binop) (l : list (option Qc)) : option Qc :=
  match f, l with inl UReal, [x] | inl UConj, [x] => x | _, _ => None end.
Definition sbval (b : binop) (x y : Qc) : option Qc := match b with BPow => if Qc_eq_bool y (Q2Qc (inject_Z 2)) then Some (x * x)%Qc else None | _ => qbval b x y end.
Definition tok_dec (a b : Print.tok Qc) : {a = b} + {a <> b}.
Proof. repeat (decide equality; try apply Qc_eq_dec). Defined.
Definition toks_eqb (a b : list (Print.tok Qc)) : bool := if list_eq_dec tok_dec a b then true else false.
Lemma toks_eqb_eq a b : toks_eqb a b = true -> a = b.
Proof. unfold toks_eqb. destruct (list_eq_dec tok_dec a b); [auto|discriminate]. Qed.
(** For the examples below no sorting is needed: at most one factor in each term, or terms already in order. *)
Definition qsimplify near0 near1 f e := Simplify Qc 0%Qc 1%Qc Qcplus Qcmult Qcminus Qcopp Qcinv q0 near0 near1 near0 Props.qneg suval (list (Print.tok Qc))
  (print Qc 1%Qc g6) toks_eqb (fun l => l) (fun l => l) f e.
Definition seval rho e := eval Qc Qcplus Qcmult Qcminus Qcdiv q0 sbval suval truthq rho e.

(** (x + 2) (y - x) - x (y - 3), over the integers, with the machine epsilon: the products of x and y cancel. *)
Definition spoly : expr Qc := Sub Qc (Product Qc (Sum Qc px (pc 2)) (Sub Qc (Un Qc UReal py) px)) (Product Qc px (Sub Qc (Un Qc UReal py) (pc 3))).
Definition squot : expr Qc := Divide Qc (Sum Qc px (Product Qc (pc 2) py)) (Sum Qc (pc 1) (Un Qc UConj px)).
Example C22_example :
  subring Qc 0%Qc 1%Qc Qcplus Qcmult Qcopp Props.isint /\ exact_on Qc Props.isint (Props.near 0) 0%Qc /\ exact_on Qc Props.isint (Props.near 1) 1%Qc /\
  Props.near 1 1%Qc = true /\ conjugation Qc 0%Qc Qcplus suval Props.isint /\ conjugation Qc 0%Qc Qcplus suval (fun _ => True) /\
  (let un := fun u => u = UReal \/ u = UConj in
   same_meaning Qc 1%Qc Qcplus Qcmult Qcminus Qcdiv q0 sbval suval qapply scall un (fun b => b = BLT) /\
   good Qc Props.isint False spoly /\ polynomial Qc (nodes Qc (fun c => g6 c = c) un (fun b => b = BLT) (fun _ _ => False)) spoly /\
   nodes Qc (fun _ => True) un (fun b => b = BLT) (fun _ _ => False) squot /\ expandable Qc squot) /\
  (exists e', qsimplify (Props.near 0) (Props.near 1) 40 spoly = Ok e' /\ option_map this (seval qrho e') = option_map this (seval qrho spoly) /\
     option_map this (seval qrho spoly) = Some (9 # 4)%Q) /\
  (exists e', qsimplify q0 (fun a => Qc_eq_bool a 1) 40 squot = Ok e' /\ option_map this (seval qrho e') = Some (17 # 7)%Q).
Proof.
  split; [exact Props.isint_subring|].
  assert (N : forall z : Z, exact_on Qc Props.isint (Props.near (Q2Qc (inject_Z z))) (Q2Qc (inject_Z z))).
  { intros z a [y ->] H. apply Props.near_int in H. now subst. }
  split; [intros a Ha H; transitivity (Q2Qc (inject_Z 0)); [apply (N 0%Z a Ha); exact H|now apply Qc_is_canon]|].
  split; [intros a Ha H; transitivity (Q2Qc (inject_Z 1)); [apply (N 1%Z a Ha); exact H|now apply Qc_is_canon]|].
  split; [reflexivity|]. split; [split; [intros a b H [= <-]; exact H|split; reflexivity]|]. split; [split; [intros a b H [= <-]; exact H|split; reflexivity]|].
  split; [|split].
  - split.
    + split; [reflexivity|]. split; [reflexivity|]. split; [reflexivity|]. split; [reflexivity|].
      split; [intros b o x y -> [= <-]; reflexivity|]. split; [intros b x y -> ?; discriminate|].
      split; [intros u [x|] [-> | ->] _; reflexivity|intros x [[=]|[=]]].
    + split; [cbn; repeat split; eexists; reflexivity|]. split; [cbn; repeat split; auto|]. split; cbn; repeat split; auto.
  - eexists. split; [vm_compute; reflexivity|]. split; vm_compute; reflexivity.
  - eexists. split; [vm_compute; reflexivity|]. vm_compute; reflexivity.
Qed.

Lemma some_canon (a : option Qc) v : option_map this a = Some (this v) -> a = Some v.
Proof. destruct a as [x|]; cbn; [|discriminate]. intros [= E]. f_equal. apply Qc_is_canon. now rewrite E. Qed.
(** Normal ordering drops the powers (and the other binary nodes) of a term: pow(x,2)*y becomes y. *)
Theorem C22_power_refuted : exists e e' v v', qsimplify q0 (fun a => Qc_eq_bool a 1) 20 e = Ok e' /\ seval qrho e = Some v /\ seval qrho e' = Some v' /\ v <> v'.
Proof.
  exists (Product Qc (Bin Qc BPow px (pc 2)) py), py, (Q2Qc (75 # 4)), (Q2Qc (inject_Z 3)). split; [vm_compute; reflexivity|]. split; [now vm_compute|]. split; [reflexivity|].
  intro E. apply (f_equal this) in E. discriminate.
Qed.
Print Assumptions C22_power_refuted.
(** Terms are merged when their texts agree, and constants are printed with six digits: real(1.2345678 x) - real(1.2345679 x)
    becomes 0. *)
Theorem C22_digits_refuted : exists e e' v v', qsimplify q0 (fun a => Qc_eq_bool a 1) 20 e = Ok e' /\ seval qrho e = Some v /\ seval qrho e' = Some v' /\ v <> v'.
Proof.
  exists (Sub Qc (Un Qc UReal (Product Qc (Const Qc (Some (Q2Qc (12345678 # 10000000)))) px)) (Un Qc UReal (Product Qc (Const Qc (Some (Q2Qc (12345679 # 10000000)))) px))).
  eexists. exists (Q2Qc (- 1 # 4000000)), 0%Qc. split; [vm_compute; reflexivity|]. split; [apply some_canon; vm_compute; reflexivity|]. split; [apply some_canon; vm_compute; reflexivity|].
  intro E. apply (f_equal this) in E. discriminate.
Qed.
Print Assumptions C22_digits_refuted.
(** A quotient as a divisor is turned over after its divisor has been put together again, and a sum that comes to stand in
    the numerator this way is dropped: x/(y/(x + 1)) becomes x/y. *)
Theorem C22_divisor_refuted : exists e e' v v', qsimplify q0 (fun a => Qc_eq_bool a 1) 20 e = Ok e' /\ seval qrho e = Some v /\ seval qrho e' = Some v' /\ v <> v'.
Proof.
  exists (Divide Qc px (Divide Qc py (Sum Qc px (pc 1)))). eexists. exists (Q2Qc (35 # 12)), (Q2Qc (5 # 6)). split; [vm_compute; reflexivity|]. split; [apply some_canon; vm_compute; reflexivity|]. split; [apply some_canon; vm_compute; reflexivity|].
  intro E. apply (f_equal this) in E. discriminate.
Qed.
Print Assumptions C22_divisor_refuted.
