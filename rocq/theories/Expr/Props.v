From Verif.Common Require Import Prelude.
From Verif.Expr Require Import Model Spec Proofs Term.
From Coq Require Import Field QArith Qcanon.

Local Open Scope nat_scope.

(** ** C19 *)
(** The full claim is for all constants. It is proved when the constants come from a set [K] on which the tests against 0
    and 1 (which accept anything within the machine epsilon) make no mistake, for exact arithmetic, and where the operation
    on the values is defined (no division by zero). The operators always return. *)
Theorem C19_add_partial : forall V (v0 v1 : V) add mul sub opp div inv (FT : field_theory v0 v1 add mul sub opp div inv eq) eq0
  (E0 : forall x, eq0 x = true <-> x = v0) isZero isOne isAbsZero isNeg bval uval tval (K : V -> Prop) (D : Prop),
  subring V v0 v1 add mul opp K -> inverses V v0 inv K D -> exact_on V K isZero v0 -> exact_on V K isOne v1 -> exact_on V K isAbsZero v0 ->
  forall A B, good V K D A -> good V K D B ->
  exists f0 e, (forall f, f0 <= f -> e_add V v0 v1 add mul sub opp inv eq0 isZero isOne isAbsZero isNeg f A B = Ok e) /\
    forall rho v, lift2 V add (eval V add mul sub div eq0 bval uval tval rho A) (eval V add mul sub div eq0 bval uval tval rho B) = Some v ->
      eval V add mul sub div eq0 bval uval tval rho e = Some v.
Proof.
  intros V v0 v1 add mul sub opp div inv FT eq0 E0 isZero isOne isAbsZero isNeg bval uval tval K D (K0 & K1 & Ka & Km & Ko) Ki TZ TO TA A B HA HB.
  destruct (add_returns V v0 v1 add mul sub opp inv eq0 isZero isOne isAbsZero isNeg A B) as (f0 & e & E). exists f0, e. split; [exact E|].
  intros rho v H. exact (proj2 (proj2 (add_sound V v0 v1 add mul sub opp div inv FT eq0 E0 isZero isOne isAbsZero isNeg bval uval tval K D K0 K1 Ka Km Ko Ki TZ TO TA f0) A B e HA HB (E f0 (le_n _))) rho v H).
Qed.
Print Assumptions C19_add_partial.
Theorem C19_sub_partial : forall V (v0 v1 : V) add mul sub opp div inv (FT : field_theory v0 v1 add mul sub opp div inv eq) eq0
  (E0 : forall x, eq0 x = true <-> x = v0) isZero isOne isAbsZero bval uval tval (K : V -> Prop) (D : Prop),
  subring V v0 v1 add mul opp K -> inverses V v0 inv K D -> exact_on V K isZero v0 -> exact_on V K isOne v1 -> exact_on V K isAbsZero v0 ->
  forall A B, good V K D A -> good V K D B ->
  exists f0 e, (forall f, f0 <= f -> e_sub V v0 v1 mul sub opp inv eq0 isZero isOne isAbsZero f A B = Ok e) /\
    forall rho v, lift2 V sub (eval V add mul sub div eq0 bval uval tval rho A) (eval V add mul sub div eq0 bval uval tval rho B) = Some v ->
      eval V add mul sub div eq0 bval uval tval rho e = Some v.
Proof.
  intros V v0 v1 add mul sub opp div inv FT eq0 E0 isZero isOne isAbsZero bval uval tval K D (K0 & K1 & Ka & Km & Ko) Ki TZ TO TA A B HA HB.
  destruct (sub_returns V v0 v1 mul sub opp inv eq0 isZero isOne isAbsZero A B) as (f0 & e & E & _). exists f0, e. split; [exact E|].
  intros rho v H. exact (proj2 (sub_sound V v0 v1 add mul sub opp div inv FT eq0 E0 isZero isOne isAbsZero bval uval tval K D K0 K1 Ka Km Ko Ki TZ TO TA f0 A B e HA HB (E f0 (le_n _))) rho v H).
Qed.
Print Assumptions C19_sub_partial.
Theorem C19_mul_partial : forall V (v0 v1 : V) add mul sub opp div inv (FT : field_theory v0 v1 add mul sub opp div inv eq) eq0
  (E0 : forall x, eq0 x = true <-> x = v0) isZero isOne isAbsZero bval uval tval (K : V -> Prop) (D : Prop),
  subring V v0 v1 add mul opp K -> inverses V v0 inv K D -> exact_on V K isZero v0 -> exact_on V K isOne v1 -> exact_on V K isAbsZero v0 ->
  forall A B, good V K D A -> good V K D B ->
  exists f0 e, (forall f, f0 <= f -> e_mul V v0 mul inv eq0 isZero isOne isAbsZero f A B = Ok e) /\
    forall rho v, lift2 V mul (eval V add mul sub div eq0 bval uval tval rho A) (eval V add mul sub div eq0 bval uval tval rho B) = Some v ->
      eval V add mul sub div eq0 bval uval tval rho e = Some v.
Proof.
  intros V v0 v1 add mul sub opp div inv FT eq0 E0 isZero isOne isAbsZero bval uval tval K D (K0 & K1 & Ka & Km & Ko) Ki TZ TO TA A B HA HB.
  destruct (mul_returns V v0 mul inv eq0 isZero isOne isAbsZero A B) as (f0 & e & E). exists f0, e. split; [exact E|].
  intros rho v H. exact (proj2 (proj1 (proj2 (mul_sound V v0 v1 add mul sub opp div inv FT eq0 E0 isZero isOne isAbsZero bval uval tval K D K0 Km Ki TZ TO TA f0)) A B e HA HB (E f0 (le_n _))) rho v H).
Qed.
Print Assumptions C19_mul_partial.
Theorem C19_div_partial : forall V (v0 v1 : V) add mul sub opp div inv (FT : field_theory v0 v1 add mul sub opp div inv eq) eq0
  (E0 : forall x, eq0 x = true <-> x = v0) isZero isOne isAbsZero bval uval tval (K : V -> Prop),
  subring V v0 v1 add mul opp K -> inverses V v0 inv K True -> exact_on V K isZero v0 -> exact_on V K isOne v1 -> exact_on V K isAbsZero v0 ->
  forall A B, good V K True A -> good V K True B ->
  exists f0 e, (forall f, f0 <= f -> e_div V v0 mul inv eq0 isZero isOne isAbsZero f A B = Ok e) /\
    forall rho v, odiv V div eq0 (eval V add mul sub div eq0 bval uval tval rho A) (eval V add mul sub div eq0 bval uval tval rho B) = Some v ->
      eval V add mul sub div eq0 bval uval tval rho e = Some v.
Proof.
  intros V v0 v1 add mul sub opp div inv FT eq0 E0 isZero isOne isAbsZero bval uval tval K (K0 & K1 & Ka & Km & Ko) Ki TZ TO TA A B HA HB.
  destruct (div_returns V v0 mul inv eq0 isZero isOne isAbsZero A B) as (f0 & e & E). exists f0, e. split; [exact E|].
  intros rho v H. exact (proj2 (proj2 (proj2 (mul_sound V v0 v1 add mul sub opp div inv FT eq0 E0 isZero isOne isAbsZero bval uval tval K True K0 Km Ki TZ TO TA f0)) A B e I HA HB (E f0 (le_n _))) rho v H).
Qed.
Print Assumptions C19_div_partial.
(** Integer powers, unary functions and powers. *)
Theorem C19_fpow_partial : forall V (v0 v1 : V) add mul sub opp div inv (FT : field_theory v0 v1 add mul sub opp div inv eq) eq0
  (E0 : forall x, eq0 x = true <-> x = v0) isZero isOne isAbsZero bval uval tval (K : V -> Prop) (D : Prop),
  subring V v0 v1 add mul opp K -> inverses V v0 inv K D -> exact_on V K isZero v0 -> exact_on V K isOne v1 -> exact_on V K isAbsZero v0 ->
  forall fuel n x e, good V K D x -> (Z.ltb n 0 = true -> D) -> e_fpow V v0 v1 mul inv eq0 isZero isOne isAbsZero fuel x n = Ok e ->
  forall rho u, eval V add mul sub div eq0 bval uval tval rho x = Some u -> (n < 0 -> u <> v0)%Z ->
    eval V add mul sub div eq0 bval uval tval rho e =
      Some (if Z.ltb n 0 then inv (power V v1 mul u (Z.to_nat (- n))) else power V v1 mul u (Z.to_nat n)).
Proof.
  intros V v0 v1 add mul sub opp div inv FT eq0 E0 isZero isOne isAbsZero bval uval tval K D (K0 & K1 & Ka & Km & Ko) Ki TZ TO TA.
  exact (fpow_sound V v0 v1 add mul sub opp div inv FT eq0 E0 isZero isOne isAbsZero bval uval tval K D K0 K1 Km Ki TZ TO TA).
Qed.
Print Assumptions C19_fpow_partial.
Theorem C19_unary : forall V add mul sub div eq0 bval uval tval u e rho,
  (forall n, uval UConj (rho n) = Some (rho n)) ->
  eval V add mul sub div eq0 bval uval tval rho (e_unary V uval u e) = eval V add mul sub div eq0 bval uval tval rho (Un V u e).
Proof. intros V add mul sub div eq0 bval uval tval u e rho H. destruct u, e; cbn [e_unary eval]; try reflexivity. now rewrite H. Qed.
Print Assumptions C19_unary.
Theorem C19_pow_partial : forall V v0 (v1 : V) add mul sub div eq0 isOne isAbsZero bval uval tval (K : V -> Prop) e co rho,
  exact_on V K isAbsZero v0 -> exact_on V K isOne v1 -> (forall x, bval BPow x v0 = Some v1) -> (forall x, bval BPow x v1 = Some x) ->
  (forall c, co = Const V (Some c) -> K c) ->
  forall v, eval V add mul sub div eq0 bval uval tval rho (Bin V BPow e co) = Some v ->
  eval V add mul sub div eq0 bval uval tval rho (e_pow V v1 isOne isAbsZero e co) = Some v.
Proof.
  intros V v0 v1 add mul sub div eq0 isOne isAbsZero bval uval tval K e co rho T0 T1 P0 P1 HK v H. unfold e_pow.
  destruct co as [[c|]| | | | | | | | |]; try exact H. cbn [otest]. cbn [eval] in H. specialize (HK c eq_refl).
  destruct (isAbsZero c) eqn:Z0; [|destruct (isOne c) eqn:Z1; [|exact H]].
  - rewrite (T0 c HK Z0) in H. destruct (eval V add mul sub div eq0 bval uval tval rho e); [|discriminate]. rewrite P0 in H. exact H.
  - rewrite (T1 c HK Z1) in H. destruct (eval V add mul sub div eq0 bval uval tval rho e); [|discriminate]. rewrite P1 in H. exact H.
Qed.
Print Assumptions C19_pow_partial.

(** An instance: rational numbers with the machine epsilon. *)
Definition eps : Qc := Q2Qc (1 # 4503599627370496).
Definition qlt (a b : Qc) : bool := match Qccompare a b with Lt => true | _ => false end.
Definition near (c a : Qc) : bool := (qlt (a - c) eps && qlt (c - a) eps)%bool.
Definition q0 (a : Qc) : bool := Qc_eq_bool a 0.
Definition qneg (a : Qc) : bool := qlt a 0.
Definition qadd f A B := e_add Qc 0%Qc 1%Qc Qcplus Qcmult Qcminus Qcopp Qcinv q0 (near 0) (near 1) (near 0) qneg f A B.
Definition qmul f A B := e_mul Qc 0%Qc Qcmult Qcinv q0 (near 0) (near 1) (near 0) f A B.
Definition qdiv f A B := e_div Qc 0%Qc Qcmult Qcinv q0 (near 0) (near 1) (near 0) f A B.
Definition qeval rho e := eval Qc Qcplus Qcmult Qcminus Qcdiv q0 (fun _ _ _ => None) (fun _ _ => None) (fun _ => true) rho e.
Definition qc (n : Z) : expr Qc := Const Qc (Some (Q2Qc (inject_Z n))).
Definition qx : expr Qc := Param Qc (S_ "x"). Definition qy : expr Qc := Param Qc (S_ "y").

(** The integers satisfy the hypotheses for + - * with the machine epsilon. *)
Definition isint (a : Qc) : Prop := exists z, a = Q2Qc (inject_Z z).
Lemma near_int c z : near (Q2Qc (inject_Z c)) (Q2Qc (inject_Z z)) = true -> z = c.
Proof.
  unfold near, qlt. intro H. apply andb_prop in H as [H1 H2].
  assert (L : forall a b : Z, (Q2Qc (inject_Z a) - Q2Qc (inject_Z b) ?= eps)%Qc = Lt -> (a < b + 1)%Z).
  { intros a b H. change (Q2Qc (inject_Z a) - Q2Qc (inject_Z b) < eps)%Qc in H. unfold Qclt in H.
    assert (E : (this (Q2Qc (inject_Z a) - Q2Qc (inject_Z b))%Qc == inject_Z (a - b))%Q).
    { unfold Qcminus, Qcplus, Qcopp. cbn [this Q2Qc]. rewrite !Qred_correct. unfold inject_Z, Qeq, Qplus, Qopp. cbn. lia. }
    rewrite E in H. unfold Qlt in H. cbn in H. lia. }
  destruct (Q2Qc (inject_Z z) - Q2Qc (inject_Z c) ?= eps)%Qc eqn:E1; try discriminate.
  destruct (Q2Qc (inject_Z c) - Q2Qc (inject_Z z) ?= eps)%Qc eqn:E2; try discriminate.
  apply L in E1, E2. lia.
Qed.
Lemma isint_subring : subring Qc 0%Qc 1%Qc Qcplus Qcmult Qcopp isint.
Proof.
  unfold subring, isint. split; [exists 0%Z; now apply Qc_is_canon|]. split; [exists 1%Z; now apply Qc_is_canon|].
  split; [|split].
  - intros a b [x ->] [y ->]. exists (x + y)%Z. apply Qc_is_canon. unfold Qcplus, Qcmult, Qcopp. cbn [this Q2Qc]. rewrite !Qred_correct. unfold inject_Z, Qeq, Qplus. cbn. lia.
  - intros a b [x ->] [y ->]. exists (x * y)%Z. apply Qc_is_canon. unfold Qcplus, Qcmult, Qcopp. cbn [this Q2Qc]. rewrite !Qred_correct. unfold inject_Z, Qeq, Qmult. cbn. lia.
  - intros a [x ->]. exists (- x)%Z. apply Qc_is_canon. unfold Qcplus, Qcmult, Qcopp. cbn [this Q2Qc]. rewrite !Qred_correct. unfold inject_Z, Qeq, Qopp. cbn. lia.
Qed.
Example C19_example : subring Qc 0%Qc 1%Qc Qcplus Qcmult Qcopp isint /\ inverses Qc 0%Qc Qcinv isint False /\
  exact_on Qc isint (near 0) 0%Qc /\ exact_on Qc isint (near 1) 1%Qc /\
  good Qc isint False (Sum Qc (qc 2) qx) /\ good Qc isint False (Product Qc (qc (-3)) qy) /\
  qadd 9 (Sum Qc (qc 2) qx) (Product Qc (qc (-3)) qy) = Ok (Sub Qc (Sum Qc (qc 2) qx) (Product Qc (qc 3) qy)).
Proof.
  split; [exact isint_subring|]. split; [intros []|]. split; [|split; [|split; [|split]]].
  - intros a [z ->] H. change 0%Qc with (Q2Qc (inject_Z 0)) in H. apply near_int in H as ->. now apply Qc_is_canon.
  - intros a [z ->] H. assert (E : 1%Qc = Q2Qc (inject_Z 1)) by now apply Qc_is_canon. rewrite E in *. now apply near_int in H as ->.
  - split; [exists 2%Z; reflexivity|exact I].
  - split; [exists (-3)%Z; reflexivity|exact I].
  - vm_compute. repeat f_equal; now apply Qc_is_canon.
Qed.
(** Adding a constant smaller than the machine epsilon is dropped, and so is a product with it, however large the other
    factor: 10^-17 x evaluates to 0 for x = 10^17. *)
Theorem C19_tiny_refuted : exists c rho e, qmul 9 (Const Qc (Some c)) qx = Ok e /\ qeval rho e = Some 0%Qc /\ (c * rho (S_ "x"))%Qc = 1%Qc.
Proof.
  exists (Q2Qc (1 # 100000000000000000)), (fun _ => Q2Qc (inject_Z 100000000000000000)). eexists. split; [|split].
  - vm_compute. reflexivity.
  - reflexivity.
  - apply Qc_is_canon. reflexivity.
Qed.
(** The constant 0 divided by anything is 0, also where the divisor vanishes. *)
Theorem C19_zero_over_zero_refuted : exists rho e, qdiv 9 (qc 0) qx = Ok e /\ qeval rho e = Some 0%Qc /\ qeval rho (Divide Qc (qc 0) qx) = None.
Proof.
  exists (fun _ => 0%Qc). eexists. split; [|split]; vm_compute; reflexivity.
Qed.
