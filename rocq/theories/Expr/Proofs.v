From Verif.Common Require Import Prelude.
From Verif.Expr Require Import Model Spec.
From Coq Require Import Field.

Section Proofs.
  Variables (V : Type) (v0 v1 : V) (add mul sub : V -> V -> V) (opp : V -> V) (div : V -> V -> V) (inv : V -> V).
  Hypothesis FT : field_theory v0 v1 add mul sub opp div inv eq.
  Add Field VF : FT.
  Variable eq0 : V -> bool.
  Hypothesis eq0_spec : forall x, eq0 x = true <-> x = v0.
  Variables (isZero isOne isAbsZero isNeg : V -> bool).
  Variables (bval : binop -> V -> V -> option V) (uval : unop -> V -> option V) (tval : V -> bool).
  (** The constants on which the tests are reliable; [D]: closed under inverses, divisions allowed. *)
  Variables (K : V -> Prop) (D : Prop).
  Hypotheses (K0 : K v0) (K1 : K v1) (Kadd : forall a b, K a -> K b -> K (add a b)) (Kmul : forall a b, K a -> K b -> K (mul a b))
    (Kopp : forall a, K a -> K (opp a)) (Kinv : D -> forall a, K a -> a <> v0 -> K (inv a))
    (tZero : forall a, K a -> isZero a = true -> a = v0) (tOne : forall a, K a -> isOne a = true -> a = v1)
    (tAbs : forall a, K a -> isAbsZero a = true -> a = v0).
  Notation expr := (expr V).
  Notation eval := (eval V add mul sub div eq0 bval uval tval).
  Notation simp := (simplify_multiplication V v0 mul inv eq0 isZero isOne isAbsZero).
  Notation e_mul := (e_mul V v0 mul inv eq0 isZero isOne isAbsZero).
  Notation e_div := (e_div V v0 mul inv eq0 isZero isOne isAbsZero).
  Notation lift2 := (lift2 V).
  Notation odiv := (odiv V div eq0).
  Notation oinv := (oinv V inv eq0).

  Notation okc := (okc V K).
  Notation good := (good V K D).
  Definition ref (a b : option V) : Prop := forall v, a = Some v -> b = Some v.
  Lemma ref_refl a : ref a a. Proof. intros v H. exact H. Qed.
  Lemma ref_trans a b c : ref a b -> ref b c -> ref a c. Proof. intros H1 H2 v H. auto. Qed.
  Lemma ref_lift2 f a a' b b' : ref a a' -> ref b b' -> ref (lift2 f a b) (lift2 f a' b').
  Proof. intros H1 H2 v H. destruct a as [x|], b as [y|]; try discriminate. now rewrite (H1 x eq_refl), (H2 y eq_refl). Qed.
  Lemma ref_odiv a a' b b' : ref a a' -> ref b b' -> ref (odiv a b) (odiv a' b').
  Proof. intros H1 H2 v H. destruct a as [x|], b as [y|]; try discriminate. now rewrite (H1 x eq_refl), (H2 y eq_refl). Qed.
  Lemma eq0_false x : eq0 x = false -> x <> v0.
  Proof. intros H E. apply eq0_spec in E. congruence. Qed.
  Lemma okc_lift2 f (Hf : forall a b, K a -> K b -> K (f a b)) a b : okc a -> okc b -> okc (lift2 f a b).
  Proof. destruct a, b; simpl; auto. Qed.
  Lemma okc_oinv (HD : D) a : okc a -> okc (oinv a).
  Proof. destruct a as [x|]; simpl; [|auto]. intro H. destruct (eq0 x) eqn:E; simpl; [exact I|]. apply Kinv; auto. now apply eq0_false. Qed.
  Lemma otest_some t (c : option V) : otest V t c = true -> exists x, c = Some x /\ t x = true.
  Proof. destruct c as [x|]; simpl; [eauto|discriminate]. Qed.

  (** Arithmetic of undefined-or-value. *)
  Ltac crush :=
    let w := fresh "w" in let H := fresh "H" in
    intros w H; unfold Model.lift2, Model.odiv, Model.oinv in *;
    repeat match goal with
           | K : context [match ?x with Some _ => _ | None => _ end] |- _ => is_var x; destruct x; try discriminate
           | K : context [if eq0 ?x then _ else _] |- _ => let Q := fresh "Q" in destruct (eq0 x) eqn:Q; try discriminate
           | |- context [if eq0 ?x then _ else _] => let Q := fresh "Q" in destruct (eq0 x) eqn:Q; try discriminate
           end.
  Lemma mul_zero y : eq0 (mul v0 y) = true. Proof. apply eq0_spec. ring. Qed.
  Lemma mul_nz x y : eq0 (mul x y) = false -> eq0 x = false /\ eq0 y = false.
  Proof.
    intro H. split; (destruct (eq0 x) eqn:E || idtac); try reflexivity.
    - apply eq0_spec in E. subst. now rewrite mul_zero in H.
    - apply eq0_spec in E. subst. now rewrite mul_zero in H.
    - destruct (eq0 y) eqn:E2; [|reflexivity]. apply eq0_spec in E2. subst.
      replace (mul x v0) with (mul v0 x) in H by ring. now rewrite mul_zero in H.
  Qed.
  Lemma nz_mul x y : eq0 x = false -> eq0 y = false -> eq0 (mul x y) = false.
  Proof.
    intros Hx Hy. destruct (eq0 (mul x y)) eqn:E; [|reflexivity]. exfalso. apply eq0_spec in E. apply eq0_false in Hx, Hy. apply Hy.
    transitivity (div (mul x y) x); [field; exact Hx|]. rewrite E. field. exact Hx.
  Qed.

  Lemma arith_assoc c a b : ref (lift2 mul c (lift2 mul a b)) (lift2 mul (lift2 mul c a) b).
  Proof. crush. injection H as <-. f_equal. ring. Qed.
  Lemma arith_comm a b : ref (lift2 mul a b) (lift2 mul b a).
  Proof. crush. injection H as <-. f_equal. ring. Qed.
  Lemma arith_divl l r b : ref (lift2 mul (odiv l r) b) (odiv (lift2 mul l b) r).
  Proof. crush. injection H as <-. f_equal. apply eq0_false in Q. field. exact Q. Qed.
  Lemma arith_divr a l r : ref (lift2 mul a (odiv l r)) (odiv (lift2 mul a l) r).
  Proof. crush. injection H as <-. f_equal. apply eq0_false in Q. field. exact Q. Qed.
  Lemma arith_inv a b : ref (odiv a b) (lift2 mul a (oinv b)).
  Proof. crush. injection H as <-. f_equal. apply eq0_false in Q. field. exact Q. Qed.
  Lemma arith_divprod a k r : ref (odiv a (lift2 mul k r)) (odiv (lift2 mul (oinv k) a) r).
  Proof.
    intros w H. destruct a as [a|], k as [k|], r as [r|]; try discriminate. unfold Model.odiv, Model.lift2 in *. unfold Model.oinv.
    destruct (eq0 (mul k r)) eqn:Q; [discriminate|]. destruct (mul_nz _ _ Q) as [Q1 Q2]. rewrite Q1, Q2. injection H as <-. f_equal.
    apply eq0_false in Q1, Q2. field. split; assumption.
  Qed.
  Lemma arith_divdiv a l r : ref (odiv a (odiv l r)) (odiv (lift2 mul a r) l).
  Proof.
    intros w H. destruct a as [a|], l as [l|], r as [r|]; try discriminate; unfold Model.odiv, Model.lift2 in *; destruct (eq0 r) eqn:Qr; try discriminate.
    destruct (eq0 (div l r)) eqn:Q; [discriminate|]. destruct (eq0 l) eqn:Ql.
    - apply eq0_spec in Ql. subst l. apply eq0_false in Q, Qr. exfalso. apply Q. field. exact Qr.
    - injection H as <-. f_equal. apply eq0_false in Ql, Qr. field. split; assumption.
  Qed.
  Lemma arith_div0 x b : x = v0 -> ref (odiv (Some x) b) (Some v0).
  Proof. intros ->. crush. injection H as <-. f_equal. apply eq0_false in Q. field. exact Q. Qed.
  Lemma arith_div1 a : ref (odiv a (Some v1)) a.
  Proof. crush. injection H as <-. f_equal. field. now apply eq0_false. Qed.
  Lemma arith_mul1 b : ref (lift2 mul (Some v1) b) b.
  Proof. crush. injection H as <-. f_equal. ring. Qed.
  Lemma arith_mul0 b : ref (lift2 mul (Some v0) b) (Some v0).
  Proof. crush. injection H as <-. f_equal. ring. Qed.

  Lemma as_const_Some e c : as_const V e = Some c -> e = Const V c.
  Proof. destruct e; try discriminate. intro H. now injection H as ->. Qed.
  Lemma as_sum_Some e l r : as_sum V e = Some (l, r) -> e = Sum V l r.
  Proof. destruct e; try discriminate. intro H. now injection H as -> ->. Qed.
  Lemma as_product_Some e l r : as_product V e = Some (l, r) -> e = Product V l r.
  Proof. destruct e; try discriminate. intro H. now injection H as -> ->. Qed.
  Lemma as_divide_Some e l r : as_divide V e = Some (l, r) -> e = Divide V l r.
  Proof. destruct e; try discriminate. intro H. now injection H as -> ->. Qed.
  Lemma const_test_true t e : const_test V t e = true -> exists x, e = Const V (Some x) /\ t x = true.
  Proof.
    unfold const_test. destruct (as_const V e) as [c|] eqn:E; [|discriminate]. apply as_const_Some in E as ->. intro H.
    apply otest_some in H as (x & -> & T). eauto.
  Qed.
  Lemma simp_S f c e : simp (S f) c e =
    match as_const V e with
    | Some k => Ok (Const V (lift2 mul c k))
    | None => if otest V isOne c then Ok e else if otest V isZero c then Ok (Const V (Some v0))
              else match as_product V e with
                   | Some (l, r) => bind (simp f c l) (fun m => e_mul f m r)
                   | None => Ok (Product V (Const V c) e)
                   end
    end.
  Proof. reflexivity. Qed.
  Lemma mul_S f A B : e_mul (S f) A B =
        match as_const V A, as_const V B, as_divide V A, as_divide V B with
        | Some a, _, _, _ => simp f a B
        | None, Some b, _, _ => simp f b A
        | None, None, Some (l, r), _ => bind (e_mul f l B) (fun x => e_div f x r)
        | None, None, None, Some (l, r) => bind (e_mul f A l) (fun x => e_div f x r)
        | None, None, None, None => if is_sum_or_sub V A then Ok (Product V B A) else Ok (Product V A B)
        end.
  Proof. reflexivity. Qed.
  Lemma div_S f A B : e_div (S f) A B =
        if const_test V isAbsZero A then Ok (Const V (Some v0))
        else match as_const V B, as_product V B, as_divide V B with
             | Some b, _, _ => if otest V isOne b then Ok A else e_mul f A (Const V (oinv b))
             | None, Some (l, r), _ =>
                 match as_const V l, as_const V r with
                 | Some k, _ => bind (e_mul f (Const V (oinv k)) A) (fun x => e_div f x r)
                 | None, Some k => bind (e_mul f (Const V (oinv k)) A) (fun x => e_div f x l)
                 | None, None => Ok (Divide V A B)
                 end
             | None, None, Some (l, r) => bind (e_mul f A r) (fun x => e_div f x l)
             | None, None, None => Ok (Divide V A B)
             end.
  Proof. reflexivity. Qed.

  Lemma bind_Ok {X Y} (r : res X) (k : X -> res Y) y : bind r k = Ok y -> exists x, r = Ok x /\ k x = Ok y.
  Proof. destruct r; try discriminate. eauto. Qed.

  Lemma mul_sound fuel :
    (forall c e e', okc c -> good e -> simp fuel c e = Ok e' -> good e' /\ forall rho, ref (lift2 mul c (eval rho e)) (eval rho e')) /\
    (forall A B e', good A -> good B -> e_mul fuel A B = Ok e' -> good e' /\ forall rho, ref (lift2 mul (eval rho A) (eval rho B)) (eval rho e')) /\
    (forall A B e', D -> good A -> good B -> e_div fuel A B = Ok e' -> good e' /\ forall rho, ref (odiv (eval rho A) (eval rho B)) (eval rho e')).
  Proof.
    induction fuel as [|fuel (IHs & IHm & IHd)]; [repeat split; discriminate|]. split; [|split].
    - intros c e e' Hc He H. rewrite simp_S in H. destruct (as_const V e) as [k|] eqn:Ek.
      { apply as_const_Some in Ek as ->. injection H as <-. split; [now apply okc_lift2|]. intro rho. apply ref_refl. }
      destruct (otest V isOne c) eqn:T1.
      { injection H as <-. split; [exact He|]. intro rho. apply otest_some in T1 as (x & -> & T1). rewrite (tOne x Hc T1). apply arith_mul1. }
      destruct (otest V isZero c) eqn:T0.
      { injection H as <-. split; [exact K0|]. intro rho. apply otest_some in T0 as (x & -> & T0). rewrite (tZero x Hc T0). apply arith_mul0. }
      destruct (as_product V e) as [[l r]|] eqn:Ep.
      + apply as_product_Some in Ep as ->. apply bind_Ok in H as (m & E & H). destruct He as [Hl Hr].
        destruct (IHs c l m Hc Hl E) as [Hm Rm]. destruct (IHm m r e' Hm Hr H) as [He' Re]. split; [exact He'|]. intro rho. cbn [Model.eval].
        eapply ref_trans; [apply arith_assoc|]. eapply ref_trans; [|apply Re]. apply ref_lift2; [apply Rm|apply ref_refl].
      + injection H as <-. split; [split; assumption|]. intro rho. apply ref_refl.
    - intros A B e' HA HB H. rewrite mul_S in H. destruct (as_const V A) as [a|] eqn:Ea.
      { apply as_const_Some in Ea as ->. exact (IHs _ _ _ HA HB H). }
      destruct (as_const V B) as [b|] eqn:Eb.
      { apply as_const_Some in Eb as ->. destruct (IHs _ _ _ HB HA H) as [He Re]. split; [exact He|]. intro rho. eapply ref_trans; [apply arith_comm|apply Re]. }
      destruct (as_divide V A) as [[l r]|] eqn:Ed.
      { apply as_divide_Some in Ed as ->. destruct HA as (d & Hl & Hr). apply bind_Ok in H as (x & E & H).
        destruct (IHm _ _ _ Hl HB E) as [Hx Rx]. destruct (IHd _ _ _ d Hx Hr H) as [He Re]. split; [exact He|]. intro rho.
        eapply ref_trans; [apply arith_divl|]. eapply ref_trans; [|apply Re]. apply ref_odiv; [apply Rx|apply ref_refl]. }
      destruct (as_divide V B) as [[l r]|] eqn:Ed'.
      { apply as_divide_Some in Ed' as ->. destruct HB as (d & Hl & Hr). apply bind_Ok in H as (x & E & H).
        destruct (IHm _ _ _ HA Hl E) as [Hx Rx]. destruct (IHd _ _ _ d Hx Hr H) as [He Re]. split; [exact He|]. intro rho.
        eapply ref_trans; [apply arith_divr|]. eapply ref_trans; [|apply Re]. apply ref_odiv; [apply Rx|apply ref_refl]. }
      destruct (is_sum_or_sub V A); injection H as <-; (split; [split; assumption|]); intro rho; [apply arith_comm|apply ref_refl].
    - intros A B e' d HA HB H. rewrite div_S in H. destruct (const_test V isAbsZero A) eqn:EA.
      { injection H as <-. split; [exact K0|]. apply const_test_true in EA as (x & -> & T). intro rho. apply (arith_div0 x). now apply tAbs. }
      assert (PK : forall k r, okc k -> good r -> (forall rho, ref (eval rho B) (lift2 mul k (eval rho r))) ->
        bind (e_mul fuel (Const V (oinv k)) A) (fun x => e_div fuel x r) = Ok e' -> good e' /\ forall rho, ref (odiv (eval rho A) (eval rho B)) (eval rho e')).
      { intros k r Hk Hr EB H'. apply bind_Ok in H' as (x & E & H').
        destruct (IHm (Const V (oinv k)) A x) as [Hx Rx]; [now apply okc_oinv|exact HA|exact E|].
        destruct (IHd _ _ _ d Hx Hr H') as [He Re]. split; [exact He|]. intro rho.
        eapply ref_trans; [apply ref_odiv; [apply ref_refl|apply EB]|]. eapply ref_trans; [apply arith_divprod|].
        eapply ref_trans; [|apply Re]. apply ref_odiv; [apply Rx|apply ref_refl]. }
      assert (PP : Ok (Divide V A B) = Ok e' -> good e' /\ forall rho, ref (odiv (eval rho A) (eval rho B)) (eval rho e')).
      { intro H'. injection H' as <-. split; [repeat split; assumption|]. intro rho. apply ref_refl. }
      destruct (as_const V B) as [k|] eqn:Eb.
      { apply as_const_Some in Eb as ->. destruct (otest V isOne k) eqn:T.
        - injection H as <-. split; [exact HA|]. intro rho. apply otest_some in T as (x & -> & T). cbn [Model.eval]. rewrite (tOne x HB T). apply arith_div1.
        - destruct (IHm A (Const V (oinv k)) e' HA (okc_oinv d k HB) H) as [He Re]. split; [exact He|]. intro rho.
          eapply ref_trans; [apply arith_inv|apply Re]. }
      destruct (as_product V B) as [[l r]|] eqn:Ep.
      { apply as_product_Some in Ep as ->. destruct HB as [Hl Hr]. destruct (as_const V l) as [k|] eqn:El.
        - apply as_const_Some in El as ->. apply (PK k r Hl Hr); [intro rho; apply ref_refl|exact H].
        - destruct (as_const V r) as [k|] eqn:Er; [|exact (PP H)].
          apply as_const_Some in Er as ->. apply (PK k l Hr Hl); [intro rho; apply arith_comm|exact H]. }
      destruct (as_divide V B) as [[l r]|] eqn:Ed; [|exact (PP H)]. apply as_divide_Some in Ed as ->.
      destruct HB as (_ & Hl & Hr). apply bind_Ok in H as (x & E & H).
      destruct (IHm _ _ _ HA Hr E) as [Hx Rx]. destruct (IHd _ _ _ d Hx Hl H) as [He Re]. split; [exact He|]. intro rho.
      eapply ref_trans; [apply arith_divdiv|]. eapply ref_trans; [|apply Re]. apply ref_odiv; [apply Rx|apply ref_refl].
  Qed.

  Notation e_neg := (e_neg V v0 v1 mul opp inv eq0 isZero isOne isAbsZero).
  Notation e_sub := (e_sub V v0 v1 mul sub opp inv eq0 isZero isOne isAbsZero).
  Notation spa := (simplify_product_addition V v0 v1 mul sub opp inv eq0 isZero isOne isAbsZero isNeg).
  Notation sca := (simplify_constant_addition V v0 v1 add mul sub opp inv eq0 isZero isOne isAbsZero isNeg).
  Notation e_add := (e_add V v0 v1 add mul sub opp inv eq0 isZero isOne isAbsZero isNeg).

  Lemma okc_m1 : okc (Some (opp v1)). Proof. simpl. auto. Qed.
  Lemma Ksub a b : K a -> K b -> K (sub a b).
  Proof. intros. replace (sub a b) with (add a (opp b)) by ring. auto. Qed.

  Lemma neg_sound fuel A e' : good A -> e_neg fuel A = Ok e' -> good e' /\ forall rho, ref (lift2 mul (Some (opp v1)) (eval rho A)) (eval rho e').
  Proof. intros HA H. exact (proj1 (proj2 (mul_sound fuel)) (Const V (Some (opp v1))) A e' okc_m1 HA H). Qed.

  Lemma sub_sound fuel A B e' : good A -> good B -> e_sub fuel A B = Ok e' ->
    good e' /\ forall rho, ref (lift2 sub (eval rho A) (eval rho B)) (eval rho e').
  Proof.
    intros HA HB H. unfold Model.e_sub in H. destruct (const_test V isZero A) eqn:TA.
    { apply const_test_true in TA as (x & -> & T). rewrite (tZero x HA T). destruct (neg_sound fuel B e' HB H) as [He Re].
      split; [exact He|]. intro rho. eapply ref_trans; [|apply Re]. cbn [Model.eval].
      destruct (eval rho B); intros w E; [injection E as <-|discriminate]. cbn [Model.lift2]. f_equal. ring. }
    destruct (const_test V isZero B) eqn:TB.
    { apply const_test_true in TB as (x & -> & T). rewrite (tZero x HB T). injection H as <-. split; [exact HA|]. intro rho. cbn [Model.eval].
      destruct (eval rho A); intros w E; [injection E as <-|discriminate]. f_equal. ring. }
    assert (PP : Ok (Sub V A B) = Ok e' -> good e' /\ forall rho, ref (lift2 sub (eval rho A) (eval rho B)) (eval rho e')).
    { intro H'. injection H' as <-. split; [split; assumption|]. intro rho. apply ref_refl. }
    destruct (as_const V A) as [a|] eqn:Ea; [|exact (PP H)]. destruct (as_const V B) as [b|] eqn:Eb; [|exact (PP H)].
    apply as_const_Some in Ea as ->. apply as_const_Some in Eb as ->. injection H as <-. split; [apply okc_lift2; [exact Ksub| |]; assumption|].
    intro rho. apply ref_refl.
  Qed.

  Lemma spa_sound fuel l r e e' : good l -> good r -> good e -> spa fuel l r e = Ok e' ->
    good e' /\ forall rho, ref (lift2 add (eval rho e) (lift2 mul (eval rho l) (eval rho r))) (eval rho e').
  Proof.
    intros Hl Hr He H. unfold Model.simplify_product_addition in H.
    assert (PP : Ok (Sum V e (Product V l r)) = Ok e' -> good e' /\ forall rho, ref (lift2 add (eval rho e) (lift2 mul (eval rho l) (eval rho r))) (eval rho e')).
    { intro H'. injection H' as <-. split; [repeat split; assumption|]. intro rho. apply ref_refl. }
    destruct (as_const V l) as [k|] eqn:El; [|exact (PP H)]. destruct (otest V isNeg k); [|exact (PP H)].
    apply as_const_Some in El as ->. apply bind_Ok in H as (m & E & H).
    destruct (proj1 (proj2 (mul_sound fuel)) (Const V (lift2 mul (Some (opp v1)) k)) _ m (okc_lift2 mul Kmul _ _ okc_m1 Hl) Hr E) as [Hm Rm].
    destruct (sub_sound _ _ _ _ He Hm H) as [He' Re]. split; [exact He'|]. intro rho. eapply ref_trans; [|apply Re].
    eapply ref_trans; [|apply ref_lift2; [apply ref_refl|apply Rm]]. cbn [Model.eval].
    destruct (eval rho e), k, (eval rho r); intros w Q; try discriminate. injection Q as <-. cbn [Model.lift2]. f_equal. ring.
  Qed.

  Lemma sca_S f c e : sca (S f) c e =
        if otest V isZero c then Ok e
        else match as_const V e, as_sum V e with
             | Some k, _ => Ok (Const V (lift2 add c k))
             | None, Some (l, r) => bind (sca f c l) (fun m => e_add f m r)
             | None, None => Ok (Sum V (Const V c) e)
             end.
  Proof. reflexivity. Qed.
  Lemma add_S f A B : e_add (S f) A B =
        match as_const V A, as_const V B, as_product V A, as_product V B with
        | Some a, _, _, _ => sca f a B
        | None, Some b, _, _ => sca f b A
        | None, None, Some (l, r), _ => spa f l r B
        | None, None, None, Some (l, r) => spa f l r A
        | None, None, None, None => Ok (Sum V A B)
        end.
  Proof. reflexivity. Qed.

  Lemma add_comm a b : ref (lift2 add a b) (lift2 add b a).
  Proof. crush. injection H as <-. f_equal. ring. Qed.

  Lemma add_sound fuel :
    (forall c e e', okc c -> good e -> sca fuel c e = Ok e' -> good e' /\ forall rho, ref (lift2 add c (eval rho e)) (eval rho e')) /\
    (forall A B e', good A -> good B -> e_add fuel A B = Ok e' -> good e' /\ forall rho, ref (lift2 add (eval rho A) (eval rho B)) (eval rho e')).
  Proof.
    induction fuel as [|fuel (IHs & IHa)]; [repeat split; discriminate|]. split.
    - intros c e e' Hc He H. rewrite sca_S in H. destruct (otest V isZero c) eqn:T.
      { apply otest_some in T as (x & -> & T). rewrite (tZero x Hc T). injection H as <-. split; [exact He|]. intro rho.
        destruct (eval rho e); intros w E; [injection E as <-|discriminate]. f_equal. ring. }
      destruct (as_const V e) as [k|] eqn:Ek.
      { apply as_const_Some in Ek as ->. injection H as <-. split; [now apply okc_lift2|]. intro rho. apply ref_refl. }
      destruct (as_sum V e) as [[l r]|] eqn:Es.
      + apply as_sum_Some in Es as ->. destruct He as [Hl Hr]. apply bind_Ok in H as (m & E & H).
        destruct (IHs _ _ _ Hc Hl E) as [Hm Rm]. destruct (IHa _ _ _ Hm Hr H) as [He' Re]. split; [exact He'|]. intro rho.
        eapply ref_trans; [|apply Re]. eapply ref_trans; [|apply ref_lift2; [apply Rm|apply ref_refl]]. cbn [Model.eval].
        destruct c, (eval rho l), (eval rho r); intros w Q; try discriminate. injection Q as <-. cbn [Model.lift2]. f_equal. ring.
      + injection H as <-. split; [split; assumption|]. intro rho. apply ref_refl.
    - intros A B e' HA HB H. rewrite add_S in H. destruct (as_const V A) as [a|] eqn:Ea.
      { apply as_const_Some in Ea as ->. exact (IHs _ _ _ HA HB H). }
      destruct (as_const V B) as [b|] eqn:Eb.
      { apply as_const_Some in Eb as ->. destruct (IHs _ _ _ HB HA H) as [He Re]. split; [exact He|]. intro rho. eapply ref_trans; [apply add_comm|apply Re]. }
      destruct (as_product V A) as [[l r]|] eqn:EA.
      { apply as_product_Some in EA as ->. destruct HA as [Hl Hr]. destruct (spa_sound _ _ _ _ _ Hl Hr HB H) as [He Re]. split; [exact He|].
        intro rho. eapply ref_trans; [apply add_comm|apply Re]. }
      destruct (as_product V B) as [[l r]|] eqn:EB.
      { apply as_product_Some in EB as ->. destruct HB as [Hl Hr]. destruct (spa_sound _ _ _ _ _ Hl Hr HA H) as [He Re]. split; [exact He|]. exact Re. }
      injection H as <-. split; [split; assumption|]. intro rho. apply ref_refl.
  Qed.

  Notation power := (power V v1 mul).
  Fixpoint opower (x : option V) (n : nat) : option V := match n with 0 => Some v1 | S n' => lift2 mul x (opower x n') end.
  Lemma opower_some x n : opower (Some x) n = Some (power x n).
  Proof. induction n as [|n IH]; [reflexivity|]. cbn [opower Spec.power]. rewrite IH. reflexivity. Qed.
  Lemma power_nz u k : u <> v0 -> eq0 (power u k) = false.
  Proof.
    intro Hu. induction k as [|k IH]; cbn [Spec.power].
    - destruct (eq0 v1) eqn:Q; [|reflexivity]. apply eq0_spec in Q. exfalso. exact (F_1_neq_0 FT Q).
    - apply nz_mul; [|exact IH]. destruct (eq0 u) eqn:Q; [|reflexivity]. apply eq0_spec in Q. now apply Hu in Q.
  Qed.
  Lemma fpow_loop_sound fuel n x : good x -> forall rt e', good rt -> fpow_loop V v0 mul inv eq0 isZero isOne isAbsZero fuel n x rt = Ok e' ->
    good e' /\ forall rho, ref (lift2 mul (eval rho rt) (match n with 0 => Some v1 | _ => opower (eval rho x) n end)) (eval rho e').
  Proof.
    intro Hx. induction n as [|n IH]; intros rt e' Hrt H; cbn [fpow_loop] in H.
    - injection H as <-. split; [exact Hrt|]. intro rho. destruct (eval rho rt); intros z E; [injection E as <-|discriminate]. f_equal. ring.
    - apply bind_Ok in H as (m & E & H). destruct (proj1 (proj2 (mul_sound fuel)) _ _ _ Hrt Hx E) as [Hm Rm].
      destruct (IH _ _ Hm H) as [He Re]. split; [exact He|]. intro rho. eapply ref_trans; [|apply Re].
      eapply ref_trans; [|apply ref_lift2; [apply Rm|apply ref_refl]]. cbn [opower].
      assert (E2 : match n with 0 => Some v1 | S _ => opower (eval rho x) n end = opower (eval rho x) n) by now destruct n.
      rewrite E2. destruct (eval rho rt), (eval rho x) as [y|]; intros u Q; try discriminate.
      rewrite opower_some in *. cbn [Model.lift2] in *. rewrite <- Q. f_equal. ring.
  Qed.
  Lemma fpow_sound fuel n x e' : good x -> (Z.ltb n 0 = true -> D) -> e_fpow V v0 v1 mul inv eq0 isZero isOne isAbsZero fuel x n = Ok e' ->
    forall rho u, eval rho x = Some u -> (n < 0 -> u <> v0)%Z ->
      eval rho e' = Some (if Z.ltb n 0 then inv (power u (Z.to_nat (- n))) else power u (Z.to_nat n)).
  Proof.
    intros Hx HD H rho u E Hu. unfold e_fpow in H. destruct (Z.ltb_spec n 0) as [Hn|Hn].
    - apply bind_Ok in H as (m & E1 & H). destruct (fpow_loop_sound _ _ _ Hx (Const V (Some v1)) m K1 E1) as [Hm Rm].
      destruct (proj2 (proj2 (mul_sound fuel)) (Const V (Some v1)) m e' (HD eq_refl) K1 Hm H) as [He Re]. apply Re.
      assert (E3 : eval rho m = Some (power u (Z.to_nat (- n)))).
      { apply Rm. rewrite E, opower_some. cbn [Model.eval]. destruct (Z.to_nat (- n)); cbn [Model.lift2 Spec.power]; f_equal; ring. }
      rewrite E3. cbn [Model.eval Model.odiv].
      assert (P : eq0 (power u (Z.to_nat (- n))) = false) by (apply power_nz; auto).
      rewrite P. f_equal. apply eq0_false in P. field. exact P.
    - destruct (fpow_loop_sound _ _ _ Hx (Const V (Some v1)) e' K1 H) as [He Re]. apply Re. rewrite E, opower_some. cbn [Model.eval].
      destruct (Z.to_nat n); cbn [Model.lift2 Spec.power]; f_equal; ring.
  Qed.
End Proofs.
