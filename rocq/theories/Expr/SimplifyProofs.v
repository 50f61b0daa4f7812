From Verif.Common Require Import Prelude.
From Verif.Expr Require Import Model Spec Proofs Term Simplify.
From Coq Require Import Field Permutation.

Section SimplifyProofs.
  Variables (V : Type) (v0 v1 : V) (add mul sub : V -> V -> V) (opp : V -> V) (div : V -> V -> V) (inv : V -> V).
  Hypothesis FT : field_theory v0 v1 add mul sub opp div inv eq.
  Add Field VF : FT.
  Variable eq0 : V -> bool.
  Hypothesis eq0_spec : forall x, eq0 x = true <-> x = v0.
  Variables (isZero isOne isAbsZero isNeg : V -> bool).
  Variables (bval : binop -> V -> V -> option V) (uval : unop -> V -> option V) (tval : V -> bool).
  Variable K : V -> Prop.
  Variable D : Prop.
  Hypotheses (K0 : K v0) (K1 : K v1) (Kadd : forall a b, K a -> K b -> K (add a b)) (Kmul : forall a b, K a -> K b -> K (mul a b))
    (Kopp : forall a, K a -> K (opp a)) (Kinv : D -> forall a, K a -> a <> v0 -> K (inv a))
    (tZero : forall a, K a -> isZero a = true -> a = v0) (tOne : forall a, K a -> isOne a = true -> a = v1)
    (tAbs : forall a, K a -> isAbsZero a = true -> a = v0).
  Notation expr := (expr V).
  Notation lift2 := (lift2 V).
  Notation odiv := (odiv V div eq0).
  Notation oinv := (oinv V inv eq0).
  Notation okc := (okc V K).
  Notation good := (good V K D).
  Notation ref := (ref V).
  Notation eval := (eval V add mul sub div eq0 bval uval tval).
  Notation simp := (simplify_multiplication V v0 mul inv eq0 isZero isOne isAbsZero).
  Notation e_mul := (e_mul V v0 mul inv eq0 isZero isOne isAbsZero).
  Notation e_div := (e_div V v0 mul inv eq0 isZero isOne isAbsZero).
  Notation e_neg := (e_neg V v0 v1 mul opp inv eq0 isZero isOne isAbsZero).
  Notation e_sub := (e_sub V v0 v1 mul sub opp inv eq0 isZero isOne isAbsZero).
  Notation spa := (simplify_product_addition V v0 v1 mul sub opp inv eq0 isZero isOne isAbsZero isNeg).
  Notation sca := (simplify_constant_addition V v0 v1 add mul sub opp inv eq0 isZero isOne isAbsZero isNeg).
  Notation e_add := (e_add V v0 v1 add mul sub opp inv eq0 isZero isOne isAbsZero isNeg).

  (** ** The predicate carried along *)
  Variable H : expr -> Prop.
  Hypothesis Hgood : forall e, H e -> good e.
  Hypothesis Hher : hereditary V H K D.
  Lemma Hconst c : okc c -> H (Const V c). Proof. apply (proj1 Hher). Qed.
  Lemma Hokc c : H (Const V c) -> okc c. Proof. apply Hgood. Qed.
  Lemma HSum l r : H (Sum V l r) <-> H l /\ H r. Proof. apply Hher. Qed.
  Lemma HSub l r : H (Sub V l r) <-> H l /\ H r. Proof. apply Hher. Qed.
  Lemma HProduct l r : H (Product V l r) <-> H l /\ H r. Proof. apply Hher. Qed.
  Lemma HDivide l r : H (Divide V l r) <-> D /\ H l /\ H r. Proof. apply Hher. Qed.
  Lemma HConj a : H (Un V UConj a) <-> H a. Proof. apply Hher. Qed.
  Lemma okc_mul a b : okc a -> okc b -> okc (lift2 mul a b). Proof. now apply okc_lift2. Qed.
  Lemma okc_inv (HD : D) a : okc a -> okc (oinv a).
  Proof. destruct a as [x|]; [|exact (fun i => i)]. cbn. destruct (eq0 x) eqn:E; [exact (fun _ => I)|]. intro Hx. cbn. apply Kinv; [exact HD|exact Hx|]. intro X. apply eq0_spec in X. congruence. Qed.

  Lemma mul_H fuel :
    (forall c e e', okc c -> H e -> simp fuel c e = Ok e' -> H e') /\ (forall A B e', H A -> H B -> e_mul fuel A B = Ok e' -> H e') /\
    (forall A B e', D -> H A -> H B -> e_div fuel A B = Ok e' -> H e').
  Proof.
    induction fuel as [|fuel (IHs & IHm & IHd)]; [repeat split; discriminate|]. split; [|split].
    - intros c e e' Hc He E. rewrite simp_S in E. destruct (as_const V e) as [k|] eqn:Ek.
      { apply as_const_Some in Ek as ->. injection E as <-. apply Hconst, okc_mul; [exact Hc|now apply Hokc]. }
      destruct (otest V isOne c); [now injection E as <-|]. destruct (otest V isZero c); [injection E as <-; now apply Hconst|].
      destruct (as_product V e) as [[l r]|] eqn:Ep.
      + apply as_product_Some in Ep as ->. apply bind_Ok in E as (m & E1 & E). apply HProduct in He as [Hl Hr]. eauto.
      + injection E as <-. apply HProduct. split; [now apply Hconst|exact He].
    - intros A B e' HA HB E. rewrite mul_S in E. destruct (as_const V A) as [a|] eqn:Ea.
      { apply as_const_Some in Ea as ->. apply Hokc in HA. eauto. }
      destruct (as_const V B) as [b|] eqn:Eb; [apply as_const_Some in Eb as ->; apply Hokc in HB; eauto|].
      destruct (as_divide V A) as [[l r]|] eqn:Ed.
      { apply as_divide_Some in Ed as ->. pose proof (proj1 (Hgood _ HA)) as HD. apply HDivide in HA as (_ & Hl & Hr). apply bind_Ok in E as (x & E1 & E). eauto. }
      destruct (as_divide V B) as [[l r]|] eqn:Ed'.
      { apply as_divide_Some in Ed' as ->. pose proof (proj1 (Hgood _ HB)) as HD. apply HDivide in HB as (_ & Hl & Hr). apply bind_Ok in E as (x & E1 & E). eauto. }
      destruct (is_sum_or_sub V A); injection E as <-; apply HProduct; auto.
    - intros A B e' HD HA HB E. rewrite div_S in E. destruct (const_test V isAbsZero A); [injection E as <-; now apply Hconst|].
      assert (PP : Ok (Divide V A B) = Ok e' -> H e') by (intro X; injection X as <-; apply HDivide; auto).
      destruct (as_const V B) as [k|] eqn:Eb.
      { apply as_const_Some in Eb as ->. destruct (otest V isOne k); [now injection E as <-|]. apply Hokc in HB. eapply IHm; [exact HA| |exact E].
        apply Hconst. now apply okc_inv. }
      destruct (as_product V B) as [[l r]|] eqn:Ep.
      { apply as_product_Some in Ep as ->. apply HProduct in HB as [Hl Hr].
        destruct (as_const V l) as [k|] eqn:El.
        - apply as_const_Some in El as ->. apply bind_Ok in E as (x & E1 & E). apply Hokc in Hl. eapply IHd; [exact HD| |exact Hr|exact E]. eapply IHm; [|exact HA|exact E1]. apply Hconst. now apply okc_inv.
        - destruct (as_const V r) as [k|] eqn:Er; [|exact (PP E)].
          apply as_const_Some in Er as ->. apply bind_Ok in E as (x & E1 & E). apply Hokc in Hr. eapply IHd; [exact HD| |exact Hl|exact E]. eapply IHm; [|exact HA|exact E1]. apply Hconst. now apply okc_inv. }
      destruct (as_divide V B) as [[l r]|] eqn:Ed; [|exact (PP E)]. apply as_divide_Some in Ed as ->. apply HDivide in HB as (_ & Hl & Hr).
      apply bind_Ok in E as (x & E1 & E). eauto.
  Qed.
  Lemma sub_H fuel A B e' : H A -> H B -> e_sub fuel A B = Ok e' -> H e'.
  Proof.
    intros HA HB E. unfold Model.e_sub in E. destruct (const_test V isZero A).
    { unfold Model.e_neg in E. apply (proj1 (proj2 (mul_H fuel))) in E; [exact E|apply Hconst; cbn; auto|exact HB]. }
    destruct (const_test V isZero B); [now injection E as <-|].
    destruct (as_const V A) as [a|] eqn:Ea; [|injection E as <-; apply HSub; auto].
    destruct (as_const V B) as [b|] eqn:Eb; injection E as <-; [|apply HSub; auto].
    apply as_const_Some in Ea as ->. apply as_const_Some in Eb as ->. apply Hconst. apply okc_lift2; [|now apply Hokc|now apply Hokc].
    intros x y Hx Hy. replace (sub x y) with (add x (opp y)) by ring. auto.
  Qed.
  Lemma spa_H fuel l r e e' : H l -> H r -> H e -> spa fuel l r e = Ok e' -> H e'.
  Proof.
    intros Hl Hr He E. unfold simplify_product_addition in E.
    assert (PP : Ok (Sum V e (Product V l r)) = Ok e' -> H e') by (intro X; injection X as <-; apply HSum; split; [exact He|]; apply HProduct; auto).
    destruct (as_const V l) as [k|] eqn:El; [|exact (PP E)]. destruct (otest V isNeg k); [|exact (PP E)].
    apply bind_Ok in E as (m & E1 & E). apply as_const_Some in El as ->. apply Hokc in Hl. eapply sub_H; [exact He| |exact E].
    eapply (proj1 (proj2 (mul_H fuel))); [|exact Hr|exact E1]. apply Hconst. apply okc_mul; [cbn; auto|exact Hl].
  Qed.
  Lemma add_H fuel : (forall c e e', okc c -> H e -> sca fuel c e = Ok e' -> H e') /\ (forall A B e', H A -> H B -> e_add fuel A B = Ok e' -> H e').
  Proof.
    induction fuel as [|fuel (IHs & IHa)]; [repeat split; discriminate|]. split.
    - intros c e e' Hc He E. rewrite sca_S in E. destruct (otest V isZero c); [now injection E as <-|].
      destruct (as_const V e) as [k|] eqn:Ek.
      { apply as_const_Some in Ek as ->. injection E as <-. apply Hconst. apply okc_lift2; [exact Kadd|exact Hc|now apply Hokc]. }
      destruct (as_sum V e) as [[l r]|] eqn:Es.
      + apply as_sum_Some in Es as ->. apply HSum in He as [Hl Hr]. apply bind_Ok in E as (m & E1 & E). eauto.
      + injection E as <-. apply HSum. split; [now apply Hconst|exact He].
    - intros A B e' HA HB E. rewrite add_S in E. destruct (as_const V A) as [a|] eqn:Ea; [apply as_const_Some in Ea as ->; apply Hokc in HA; exact (IHs a B e' HA HB E)|].
      destruct (as_const V B) as [b|] eqn:Eb; [apply as_const_Some in Eb as ->; apply Hokc in HB; exact (IHs b A e' HB HA E)|].
      destruct (as_product V A) as [[l1 r1]|] eqn:EA; [apply as_product_Some in EA as ->; apply HProduct in HA as [Hl Hr]; exact (spa_H fuel l1 r1 B e' Hl Hr HB E)|].
      destruct (as_product V B) as [[l2 r2]|] eqn:EB; [apply as_product_Some in EB as ->; apply HProduct in HB as [Hl Hr]; exact (spa_H fuel l2 r2 A e' Hl Hr HA E)|].
      injection E as <-. apply HSum. auto.
  Qed.

  (** Combined with the values. *)
  Lemma mul_ok fuel A B e' : H A -> H B -> e_mul fuel A B = Ok e' -> H e' /\ forall rho, ref (lift2 mul (eval rho A) (eval rho B)) (eval rho e').
  Proof.
    intros HA HB E. split; [exact (proj1 (proj2 (mul_H fuel)) A B e' HA HB E)|].
    exact (proj2 (proj1 (proj2 (mul_sound V v0 v1 add mul sub opp div inv FT eq0 eq0_spec isZero isOne isAbsZero bval uval tval K D K0 Kmul Kinv tZero tOne tAbs fuel)) A B e' (Hgood _ HA) (Hgood _ HB) E)).
  Qed.
  Lemma div_ok' fuel A B e' : D -> H A -> H B -> e_div fuel A B = Ok e' -> H e' /\ forall rho, ref (odiv (eval rho A) (eval rho B)) (eval rho e').
  Proof.
    intros HD HA HB E. split; [exact (proj2 (proj2 (mul_H fuel)) A B e' HD HA HB E)|].
    exact (proj2 (proj2 (proj2 (mul_sound V v0 v1 add mul sub opp div inv FT eq0 eq0_spec isZero isOne isAbsZero bval uval tval K D K0 Kmul Kinv tZero tOne tAbs fuel)) A B e' HD (Hgood _ HA) (Hgood _ HB) E)).
  Qed.
  (** Dividing by 1 is always allowed. *)
  Hypothesis isOne_1 : isOne v1 = true.
  Definition divides (B : expr) : Prop := D \/ B = Const V (Some v1).
  Lemma div_ok fuel A B e' : divides B -> H A -> H B -> e_div fuel A B = Ok e' -> H e' /\ forall rho, ref (odiv (eval rho A) (eval rho B)) (eval rho e').
  Proof.
    intros [HD | ->] HA HB E; [exact (div_ok' fuel A B e' HD HA HB E)|]. destruct fuel as [|fuel]; [discriminate|]. rewrite div_S in E. destruct (const_test V isAbsZero A) eqn:Ez.
    - injection E as <-. split; [now apply Hconst|]. intro rho. apply const_test_true in Ez as (x & -> & Ex). apply Hokc in HA.
      apply (arith_div0 V v0 v1 add mul sub opp div inv FT eq0 eq0_spec). exact (tAbs x HA Ex).
    - cbn [as_const otest] in E. rewrite isOne_1 in E. injection E as <-. split; [exact HA|]. intro rho. apply (arith_div1 V v0 v1 add mul sub opp div inv FT eq0 eq0_spec).
  Qed.
  Lemma add_ok fuel A B e' : H A -> H B -> e_add fuel A B = Ok e' -> H e' /\ forall rho, ref (lift2 add (eval rho A) (eval rho B)) (eval rho e').
  Proof.
    intros HA HB E. split; [exact (proj2 (add_H fuel) A B e' HA HB E)|].
    exact (proj2 (proj2 (add_sound V v0 v1 add mul sub opp div inv FT eq0 eq0_spec isZero isOne isAbsZero isNeg bval uval tval K D K0 K1 Kadd Kmul Kopp Kinv tZero tOne tAbs fuel) A B e' (Hgood _ HA) (Hgood _ HB) E)).
  Qed.

  (** ** Sums and products of values *)
  Definition osum (l : list (option V)) : option V := fold_right (lift2 add) (Some v0) l.
  Definition oprod (l : list (option V)) : option V := fold_right (lift2 mul) (Some v1) l.
  Lemma oadd_assoc a b c : lift2 add a (lift2 add b c) = lift2 add (lift2 add a b) c.
  Proof. destruct a, b, c; cbn; try reflexivity. f_equal. ring. Qed.
  Lemma oadd_comm a b : lift2 add a b = lift2 add b a.
  Proof. destruct a, b; cbn; try reflexivity. f_equal. ring. Qed.
  Lemma oadd_0 a : lift2 add (Some v0) a = a. Proof. destruct a; cbn; [|reflexivity]. f_equal. ring. Qed.
  Lemma omul_assoc a b c : lift2 mul a (lift2 mul b c) = lift2 mul (lift2 mul a b) c.
  Proof. destruct a, b, c; cbn; try reflexivity. f_equal. ring. Qed.
  Lemma omul_comm a b : lift2 mul a b = lift2 mul b a.
  Proof. destruct a, b; cbn; try reflexivity. f_equal. ring. Qed.
  Lemma omul_1 a : lift2 mul (Some v1) a = a. Proof. destruct a; cbn; [|reflexivity]. f_equal. ring. Qed.
  Lemma omul_add a b c : lift2 mul a (lift2 add b c) = lift2 add (lift2 mul a b) (lift2 mul a c).
  Proof. destruct a, b, c; cbn; try reflexivity. f_equal. ring. Qed.
  Lemma osum_app l r : osum (l ++ r) = lift2 add (osum l) (osum r).
  Proof. induction l as [|a l IH]; cbn [osum fold_right app]; [symmetry; apply oadd_0|]. fold (osum (l ++ r)). fold (osum l). now rewrite IH, oadd_assoc. Qed.
  Lemma oprod_app l r : oprod (l ++ r) = lift2 mul (oprod l) (oprod r).
  Proof. induction l as [|a l IH]; cbn [oprod fold_right app]; [symmetry; apply omul_1|]. fold (oprod (l ++ r)). fold (oprod l). now rewrite IH, omul_assoc. Qed.
  Lemma osum_perm l r : Permutation l r -> osum l = osum r.
  Proof.
    induction 1 as [|x l r P IH|x y l|l m r P1 IH1 P2 IH2]; [reflexivity| | |congruence].
    - cbn. fold (osum l). fold (osum r). now rewrite IH.
    - cbn. fold (osum l). rewrite !oadd_assoc. f_equal. apply oadd_comm.
  Qed.
  Lemma oprod_perm l r : Permutation l r -> oprod l = oprod r.
  Proof.
    induction 1 as [|x l r P IH|x y l|l m r P1 IH1 P2 IH2]; [reflexivity| | |congruence].
    - cbn. fold (oprod l). fold (oprod r). now rewrite IH.
    - cbn. fold (oprod l). rewrite !omul_assoc. f_equal. apply omul_comm.
  Qed.
  Lemma ref_osum l r : Forall2 ref l r -> ref (osum l) (osum r).
  Proof. induction 1; [apply ref_refl|]. cbn. now apply ref_lift2. Qed.
  Lemma osum_mul a l : ref (lift2 mul a (osum l)) (osum (map (lift2 mul a) l)).
  Proof.
    induction l as [|x l IH]; cbn [osum fold_right map]; [intros v E; destruct a; [|discriminate]; cbn in E |- *; injection E as <-; f_equal; ring|].
    fold (osum l). fold (osum (map (lift2 mul a) l)). rewrite omul_add. apply ref_lift2; [apply ref_refl|exact IH].
  Qed.
  Lemma osum_div l b : ref (odiv (osum l) b) (osum (map (fun a => odiv a b) l)).
  Proof.
    destruct b as [y|]; [|intros v E; destruct (osum l); discriminate].
    destruct (eq0 y) eqn:Ey; [intros v E; destruct (osum l); [|discriminate]; cbn in E; rewrite Ey in E; discriminate|].
    assert (Hy : y <> v0) by (intro X; apply eq0_spec in X; congruence).
    induction l as [|x l IH]; cbn [osum fold_right map].
    - intros v E. cbn in E. rewrite Ey in E. injection E as <-. f_equal. field. exact Hy.
    - fold (osum l). fold (osum (map (fun a => odiv a (Some y)) l)). eapply ref_trans; [|apply ref_lift2; [apply ref_refl|exact IH]].
      intros v E. destruct x as [x|], (osum l) as [s|]; try discriminate. cbn in E |- *. rewrite Ey in E |- *. injection E as <-. cbn. f_equal. field. exact Hy.
  Qed.

  (** ** Loops *)
  Lemma map_res_Forall2 {X Y} (g : X -> res Y) l l' : map_res g l = Ok l' -> Forall2 (fun x y => g x = Ok y) l l'.
  Proof.
    revert l'. induction l as [|a l IH]; intros l' E; cbn in E; [injection E as <-; constructor|].
    apply bind_Ok in E as (b & E1 & E). apply bind_Ok in E as (bs & E2 & E). injection E as <-. constructor; auto.
  Qed.
  Lemma fold_mul_ok fuel l : Forall H l -> forall a e', H a -> fold_res (e_mul fuel) l a = Ok e' ->
    H e' /\ forall rho, ref (lift2 mul (eval rho a) (oprod (map (eval rho) l))) (eval rho e').
  Proof.
    induction 1 as [|x l Hx Hl IH]; intros a e' Ha E; cbn in E.
    - injection E as <-. split; [exact Ha|]. intros rho v E. cbn in E. destruct (eval rho a); [|discriminate]. cbn in E. injection E as <-. f_equal. ring.
    - apply bind_Ok in E as (b & E1 & E). destruct (mul_ok _ _ _ _ Ha Hx E1) as [Hb R]. destruct (IH _ _ Hb E) as [He R']. split; [exact He|].
      intro rho. eapply ref_trans; [|exact (R' rho)]. cbn [map oprod fold_right]. fold (oprod (map (eval rho) l)). rewrite omul_assoc. apply ref_lift2; [apply R|apply ref_refl].
  Qed.
  Lemma fold_add_ok fuel l : Forall H l -> forall a e', H a -> fold_res (e_add fuel) l a = Ok e' ->
    H e' /\ forall rho, ref (lift2 add (eval rho a) (osum (map (eval rho) l))) (eval rho e').
  Proof.
    induction 1 as [|x l Hx Hl IH]; intros a e' Ha E; cbn in E.
    - injection E as <-. split; [exact Ha|]. intros rho v E. cbn in E. destruct (eval rho a); [|discriminate]. cbn in E. injection E as <-. f_equal. ring.
    - apply bind_Ok in E as (b & E1 & E). destruct (add_ok _ _ _ _ Ha Hx E1) as [Hb R]. destruct (IH _ _ Hb E) as [He R']. split; [exact He|].
      intro rho. eapply ref_trans; [|exact (R' rho)]. cbn [map osum fold_right]. fold (osum (map (eval rho) l)). rewrite oadd_assoc. apply ref_lift2; [apply R|apply ref_refl].
  Qed.

  (** ** Expansion *)
  Hypothesis Kconj : forall a b, K a -> uval UConj a = Some b -> K b.
  Hypothesis conj_add : forall a b, lift2 add (uval UConj a) (uval UConj b) = uval UConj (add a b).
  Hypothesis conj_0 : uval UConj v0 = Some v0.
  Notation expand := (ExpandBrackets V v0 v1 add mul sub opp inv eq0 isZero isOne isAbsZero isNeg uval).
  Notation econj := (e_unary V uval UConj).
  Definition real_params (rho : str -> V) : Prop := forall n, uval UConj (rho n) = Some (rho n).
  Lemma conj_H e : H e -> H (econj e).
  Proof.
    intro He. destruct e; cbn [e_unary]; try exact He; try (apply HConj; exact He).
    apply Hconst. apply Hokc in He. destruct c as [x|]; [|exact I]. cbn. destruct (uval UConj x) eqn:E; [|exact I]. exact (Kconj _ _ He E).
  Qed.
  Definition oconj (a : option V) : option V := match a with Some x => uval UConj x | None => None end.
  Lemma conj_eval rho e : real_params rho -> eval rho (econj e) = oconj (eval rho e).
  Proof. intro R. destruct e; cbn [e_unary Model.eval oconj]; try reflexivity. symmetry. apply R. Qed.
  Lemma osum_conj l : ref (oconj (osum l)) (osum (map oconj l)).
  Proof.
    induction l as [|x l IH]; cbn [osum fold_right map]; [intros v E; cbn in E; rewrite conj_0 in E; exact E|].
    fold (osum l). fold (osum (map oconj l)). eapply ref_trans; [|apply ref_lift2; [apply ref_refl|exact IH]].
    intros v E. destruct x as [x|], (osum l) as [s|]; try discriminate. cbn [Model.lift2 oconj] in E. cbn [oconj]. now rewrite conj_add.
  Qed.
  Lemma Forall2_imp {X Y} (P Q : X -> Y -> Prop) l l' : (forall x y, P x y -> Q x y) -> Forall2 P l l' -> Forall2 Q l l'.
  Proof. intros I F. induction F; constructor; auto. Qed.
  Lemma Forall2_sum (f : option V -> option V) l l' rho : Forall H l ->
    Forall2 (fun a b => H a -> H b /\ forall rho, real_params rho -> ref (f (eval rho a)) (eval rho b)) l l' -> real_params rho ->
    Forall H l' /\ ref (osum (map f (map (eval rho) l))) (osum (map (eval rho) l')).
  Proof.
    intros Hl F R. induction F as [|a b l l' E F IH]; [split; [constructor|apply ref_refl]|].
    inversion Hl as [|? ? Ha Hl']; subst. destruct (E Ha) as [Hb Rb]. destruct (IH Hl') as [Hs Rs]. split; [constructor; auto|].
    cbn [map osum fold_right]. apply ref_lift2; [apply Rb; exact R|exact Rs].
  Qed.
  Lemma expand_ok fuel e : forall es, H e -> expand fuel e = Ok es ->
    Forall H es /\ forall rho, real_params rho -> ref (eval rho e) (osum (map (eval rho) es)).
  Proof.
    assert (Leaf : forall e es, H e -> Ok [e] = Ok es -> Forall H es /\ forall rho, real_params rho -> ref (eval rho e) (osum (map (eval rho) es))).
    { intros x es Hx E. injection E as <-. split; [repeat constructor; exact Hx|]. intros rho _. cbn. rewrite oadd_comm, oadd_0. apply ref_refl. }
    induction e as [c|n|l IHl r IHr|l IHl r IHr|l IHl r IHr|l IHl r IHr|b l IHl r IHr|u a IHa|c IHc a IHa b IHb|k a IHa]; intros es He E.
    - exact (Leaf _ _ He E).
    - exact (Leaf _ _ He E).
    - cbn [ExpandBrackets] in E. apply bind_Ok in E as (ls & E1 & E). apply bind_Ok in E as (rs & E2 & E). injection E as <-.
      apply HSum in He as [Hl Hr]. destruct (IHl _ Hl E1) as [Fl Rl], (IHr _ Hr E2) as [Fr Rr]. split; [now apply Forall_app|].
      intros rho R. rewrite map_app, osum_app. cbn [Model.eval]. apply ref_lift2; auto.
    - cbn [ExpandBrackets] in E. apply bind_Ok in E as (ls & E1 & E). apply bind_Ok in E as (rs & E2 & E). apply bind_Ok in E as (rs' & E3 & E). injection E as <-.
      apply HSub in He as [Hl Hr]. destruct (IHl _ Hl E1) as [Fl Rl], (IHr _ Hr E2) as [Fr Rr]. apply map_res_Forall2 in E3.
      assert (N : forall rho, real_params rho -> Forall H rs' /\ ref (osum (map (lift2 mul (Some (opp v1))) (map (eval rho) rs))) (osum (map (eval rho) rs'))).
      { intros rho R. apply Forall2_sum; [exact Fr| |exact R]. eapply Forall2_imp; [|exact E3]. intros a b Eb Ha.
        apply mul_ok in Eb as [Hb Rb]; [split; [exact Hb|]; intros rho' _; exact (Rb rho')| |exact Ha]. apply Hconst. cbn. auto. }
      split.
      + apply Forall_app. split; [exact Fl|]. clear - E3 Fr isOne_1 Hgood Hher K0 K1 Kadd Kmul Kopp Kinv tZero tOne tAbs eq0_spec FT.
        induction E3 as [|a b x y Eb F IH]; [constructor|]. inversion Fr as [|? ? Ha Fr']; subst. constructor; [|auto].
        eapply (proj1 (proj2 (mul_H fuel))); [| |exact Eb]; [apply Hconst; cbn; auto|exact Ha].
      + intros rho R. rewrite map_app, osum_app. cbn [Model.eval]. eapply ref_trans; [|apply ref_lift2; [exact (Rl rho R)|exact (proj2 (N rho R))]].
        eapply ref_trans; [|apply ref_lift2; [apply ref_refl|apply osum_mul]]. eapply ref_trans; [|apply ref_lift2; [apply ref_refl|apply ref_lift2; [apply ref_refl|exact (Rr rho R)]]].
        intros v E. destruct (eval rho l), (eval rho r); try discriminate. cbn in E |- *. injection E as <-. f_equal. ring.
    - cbn [ExpandBrackets] in E. apply bind_Ok in E as (ls & E1 & E). apply bind_Ok in E as (rs & E2 & E). apply bind_Ok in E as (ts & E3 & E). injection E as <-.
      apply HProduct in He as [Hl Hr]. destruct (IHl _ Hl E1) as [Fl Rl], (IHr _ Hr E2) as [Fr Rr]. apply map_res_Forall2 in E3.
      assert (N : Forall H (List.concat ts) /\ forall rho, real_params rho -> ref (lift2 mul (osum (map (eval rho) ls)) (osum (map (eval rho) rs))) (osum (map (eval rho) (List.concat ts)))).
      { clear - E3 Fl Fr isOne_1 Hgood Hher K0 K1 Kadd Kmul Kopp Kinv tZero tOne tAbs eq0_spec FT.
        induction E3 as [|a b x y Eb F IH]; [split; [constructor|]; intros rho _ v E; cbn in E |- *; destruct (osum (map (eval rho) rs)); [|discriminate]; cbn in E; injection E as <-; f_equal; ring|].
        inversion Fl as [|? ? Ha Fl']; subst. destruct (IH Fl') as [Fc Rc]. apply map_res_Forall2 in Eb.
        assert (M : Forall H b /\ forall rho, ref (lift2 mul (eval rho a) (osum (map (eval rho) rs))) (osum (map (eval rho) b))).
        { clear IH Rc Fc F. split.
          - induction Eb as [|p q s t Eq Fq IHq]; [constructor|]. inversion Fr as [|? ? Hp Fr']; subst. constructor; [|auto]. exact (proj1 (mul_ok _ _ _ _ Ha Hp Eq)).
          - intro rho. eapply ref_trans; [apply osum_mul|]. apply ref_osum. induction Eb as [|p q s t Eq Fq IHq]; [constructor|]. inversion Fr as [|? ? Hp Fr']; subst.
            constructor; [|auto]. exact (proj2 (mul_ok _ _ _ _ Ha Hp Eq) rho). }
        destruct M as [Fb Rb]. split; [cbn; now apply Forall_app|]. intros rho R. cbn [List.concat]. rewrite map_app, osum_app.
        eapply ref_trans; [|apply ref_lift2; [exact (Rb rho)|exact (Rc rho R)]]. cbn [map osum fold_right]. fold (osum (map (eval rho) x)).
        intros v E. destruct (eval rho a), (osum (map (eval rho) x)), (osum (map (eval rho) rs)); try discriminate. cbn in E |- *. injection E as <-. f_equal. ring. }
      split; [apply N|]. intros rho R. eapply ref_trans; [|exact (proj2 N rho R)]. cbn [Model.eval]. apply ref_lift2; auto.
    - cbn [ExpandBrackets] in E. apply bind_Ok in E as (ls & E1 & E). apply bind_Ok in E as (rs & E2 & E). apply bind_Ok in E as (s & E3 & E).
      pose proof (proj1 (Hgood _ He)) as HD. apply HDivide in He as (_ & Hl & Hr). destruct (IHl _ Hl E1) as [Fl Rl], (IHr _ Hr E2) as [Fr Rr]. apply map_res_Forall2 in E.
      destruct (fold_add_ok _ _ Fr _ _ (Hconst (Some v0) K0) E3) as [Hs Rs].
      assert (N : Forall H es /\ forall rho, ref (osum (map (fun a => odiv a (eval rho s)) (map (eval rho) ls))) (osum (map (eval rho) es))).
      { clear - HD E Fl Hs isOne_1 Hgood Hher K0 K1 Kadd Kmul Kopp Kinv tZero tOne tAbs eq0_spec FT.
        induction E as [|a b x y Eb F IH]; [split; [constructor|intro rho; apply ref_refl]|]. inversion Fl as [|? ? Ha Fl']; subst. destruct (IH Fl') as [Fc Rc].
        destruct (div_ok _ _ _ _ (or_introl HD) Ha Hs Eb) as [Hb Rb]. split; [constructor; auto|]. intro rho. cbn [map osum fold_right]. apply ref_lift2; [apply Rb|apply Rc]. }
      split; [apply N|]. intros rho R. eapply ref_trans; [|exact (proj2 N rho)]. eapply ref_trans; [|apply osum_div]. cbn [Model.eval]. apply ref_odiv; [exact (Rl rho R)|].
      eapply ref_trans; [exact (Rr rho R)|]. intros v Ev. apply Rs. cbn [Model.eval]. now rewrite oadd_0.
    - exact (Leaf _ _ He E).
    - destruct u; try exact (Leaf _ _ He E). cbn [ExpandBrackets] in E. apply bind_Ok in E as (ts & E1 & E). injection E as <-. apply (proj1 (HConj a)) in He.
      destruct (IHa _ He E1) as [Fa Ra]. split; [apply Forall_map; eapply Forall_impl; [|exact Fa]; apply conj_H|].
      intros rho R. rewrite map_map. cbn [Model.eval]. change (ref (oconj (eval rho a)) (osum (map (fun x => eval rho (econj x)) ts))).
      rewrite (map_ext _ (fun x => oconj (eval rho x))) by (intro x; now apply conj_eval). rewrite <- map_map.
      eapply ref_trans; [|apply osum_conj]. intros v Ev. destruct (eval rho a) as [x|] eqn:Ex; [|discriminate]. now rewrite (Ra rho R x Ex).
    - exact (Leaf _ _ He E).
    - exact (Leaf _ _ He E).
  Qed.

  (** ** The shape of the terms *)
  Fixpoint term_ok (e : expr) : Prop :=
    match e with
    | Sum _ _ _ | Sub _ _ _ | Bin _ _ _ _ => False
    | Product _ l r => term_ok l /\ term_ok r
    | Divide _ l r => term_ok l /\ no_quotient V r
    | _ => True
    end.
  Lemma mul_term fuel :
    (forall c e e', term_ok e -> simp fuel c e = Ok e' -> term_ok e') /\ (forall A B e', term_ok A -> term_ok B -> e_mul fuel A B = Ok e' -> term_ok e') /\
    (forall A B e', term_ok A -> no_quotient V B -> e_div fuel A B = Ok e' -> term_ok e').
  Proof.
    induction fuel as [|fuel (IHs & IHm & IHd)]; [repeat split; discriminate|]. split; [|split].
    - intros c e e' He E. rewrite simp_S in E. destruct (as_const V e) as [k|] eqn:Ek; [injection E as <-; exact I|].
      destruct (otest V isOne c); [now injection E as <-|]. destruct (otest V isZero c); [injection E as <-; exact I|].
      destruct (as_product V e) as [[l r]|] eqn:Ep.
      + apply as_product_Some in Ep as ->. apply bind_Ok in E as (m & E1 & E). destruct He as [Hl Hr]. exact (IHm _ _ _ (IHs _ _ _ Hl E1) Hr E).
      + injection E as <-. split; [exact I|exact He].
    - intros A B e' HA HB E. rewrite mul_S in E. destruct (as_const V A) as [a|] eqn:Ea; [exact (IHs _ _ _ HB E)|].
      destruct (as_const V B) as [b|] eqn:Eb; [exact (IHs _ _ _ HA E)|].
      destruct (as_divide V A) as [[l r]|] eqn:Ed.
      { apply as_divide_Some in Ed as ->. destruct HA as [Hl Hr]. apply bind_Ok in E as (x & E1 & E). exact (IHd _ _ _ (IHm _ _ _ Hl HB E1) Hr E). }
      destruct (as_divide V B) as [[l r]|] eqn:Ed'.
      { apply as_divide_Some in Ed' as ->. destruct HB as [Hl Hr]. apply bind_Ok in E as (x & E1 & E). exact (IHd _ _ _ (IHm _ _ _ HA Hl E1) Hr E). }
      destruct (is_sum_or_sub V A); injection E as <-; split; assumption.
    - intros A B e' HA HB E. rewrite div_S in E. destruct (const_test V isAbsZero A); [injection E as <-; exact I|].
      assert (PP : Ok (Divide V A B) = Ok e' -> term_ok e') by (intro X; injection X as <-; split; assumption).
      destruct (as_const V B) as [k|] eqn:Eb; [destruct (otest V isOne k); [now injection E as <-|]; exact (IHm A (Const V (oinv k)) _ HA I E)|].
      destruct (as_product V B) as [[l r]|] eqn:Ep.
      { apply as_product_Some in Ep as ->. destruct HB as [Hl Hr].
        destruct (as_const V l) as [k|] eqn:El; [apply bind_Ok in E as (x & E1 & E); exact (IHd _ _ _ (IHm (Const V (oinv k)) A _ I HA E1) Hr E)|].
        destruct (as_const V r) as [k|] eqn:Er; [|exact (PP E)]. apply bind_Ok in E as (x & E1 & E). exact (IHd _ _ _ (IHm (Const V (oinv k)) A _ I HA E1) Hl E). }
      destruct (as_divide V B) as [[l r]|] eqn:Ed; [|exact (PP E)]. apply as_divide_Some in Ed as ->. destruct HB.
  Qed.
  Lemma conj_term e : term_ok (econj e). Proof. destruct e; exact I. Qed.

  Notation goodF := (Spec.good V K False).
  Lemma goodF_split e : goodF e <-> good e /\ no_quotient V e.
  Proof.
    induction e as [c|n|l IHl r IHr|l IHl r IHr|l IHl r IHr|l IHl r IHr|b l IHl r IHr|u a IHa|c IHc a IHa b IHb|k a IHa]; cbn [Spec.good no_quotient]; try tauto.
  Qed.
  Lemma KinvF : False -> forall a, K a -> a <> v0 -> K (inv a). Proof. intros []. Qed.
  Lemma mul_nq fuel A B e' : goodF A -> goodF B -> e_mul fuel A B = Ok e' -> goodF e'.
  Proof. intros HA HB E. exact (proj1 (proj1 (proj2 (mul_sound V v0 v1 add mul sub opp div inv FT eq0 eq0_spec isZero isOne isAbsZero bval uval tval K False K0 Kmul KinvF tZero tOne tAbs fuel)) A B e' HA HB E)). Qed.
  Lemma add_nq fuel A B e' : goodF A -> goodF B -> e_add fuel A B = Ok e' -> goodF e'.
  Proof. intros HA HB E. exact (proj1 (proj2 (add_sound V v0 v1 add mul sub opp div inv FT eq0 eq0_spec isZero isOne isAbsZero isNeg bval uval tval K False K0 K1 Kadd Kmul Kopp KinvF tZero tOne tAbs fuel) A B e' HA HB E)). Qed.
  Lemma fold_add_nq fuel l : Forall goodF l -> forall a e', goodF a -> fold_res (e_add fuel) l a = Ok e' -> goodF e'.
  Proof.
    induction 1 as [|x l Hx Hl IH]; intros a e' Ha E; cbn in E; [now injection E as <-|].
    apply bind_Ok in E as (b & E1 & E). exact (IH b e' (add_nq fuel a x b Ha Hx E1) E).
  Qed.
  Lemma Forall2_right {X Y} (P : X -> Y -> Prop) (Q : Y -> Prop) l l' : (forall x y, In x l -> P x y -> Q y) -> Forall2 P l l' -> Forall Q l'.
  Proof. intros I F. induction F; constructor; [eapply I; [left; reflexivity|eassumption]|]. apply IHF. intros u v Hu. apply I. now right. Qed.
  Lemma expand_nq fuel e : forall es, H e -> no_quotient V e -> expand fuel e = Ok es -> Forall goodF es.
  Proof.
    assert (Leaf : forall e es, H e -> no_quotient V e -> Ok [e] = Ok es -> Forall goodF es).
    { intros x es Hx Nx E. injection E as <-. repeat constructor. apply goodF_split. auto. }
    induction e as [c|n|l IHl r IHr|l IHl r IHr|l IHl r IHr|l IHl r IHr|b l IHl r IHr|u a IHa|c IHc a IHa b IHb|k a IHa]; intros es He Ne E;
      try exact (Leaf _ _ He Ne E).
    - cbn [ExpandBrackets] in E. apply bind_Ok in E as (ls & E1 & E). apply bind_Ok in E as (rs & E2 & E). injection E as <-.
      apply HSum in He as [Hl Hr]. destruct Ne as [Nl Nr]. apply Forall_app. split; [exact (IHl _ Hl Nl E1)|exact (IHr _ Hr Nr E2)].
    - cbn [ExpandBrackets] in E. apply bind_Ok in E as (ls & E1 & E). apply bind_Ok in E as (rs & E2 & E). apply bind_Ok in E as (rs' & E3 & E). injection E as <-.
      apply HSub in He as [Hl Hr]. destruct Ne as [Nl Nr]. apply Forall_app. split; [exact (IHl _ Hl Nl E1)|]. apply map_res_Forall2 in E3.
      pose proof (IHr _ Hr Nr E2) as Fr. rewrite Forall_forall in Fr. eapply Forall2_right; [|exact E3]. intros x y Hx Ey.
      refine (mul_nq fuel _ _ _ _ (Fr x Hx) Ey). cbn. auto.
    - cbn [ExpandBrackets] in E. apply bind_Ok in E as (ls & E1 & E). apply bind_Ok in E as (rs & E2 & E). apply bind_Ok in E as (ts & E3 & E). injection E as <-.
      apply HProduct in He as [Hl Hr]. destruct Ne as [Nl Nr]. apply map_res_Forall2 in E3. pose proof (IHl _ Hl Nl E1) as Fl. pose proof (IHr _ Hr Nr E2) as Fr. rewrite Forall_forall in Fl, Fr.
      apply Forall_concat. eapply Forall2_right; [|exact E3]. intros x y Hx Ey. apply map_res_Forall2 in Ey. eapply Forall2_right; [|exact Ey].
      intros p q Hp Eq. exact (mul_nq fuel _ _ _ (Fl x Hx) (Fr p Hp) Eq).
    - destruct Ne.
    - destruct u; try exact (Leaf _ _ He Ne E). cbn [ExpandBrackets] in E. apply bind_Ok in E as (ts & E1 & E). injection E as <-. apply (proj1 (HConj a)) in He.
      pose proof (proj1 (expand_ok _ _ _ He E1)) as F. apply Forall_map. eapply Forall_impl; [|exact F]. intros x Hx. apply goodF_split. split; [apply Hgood, conj_H, Hx|destruct x; exact I].
  Qed.
  Lemma expand_term fuel e : forall es, H e -> expandable V e -> expand fuel e = Ok es -> Forall term_ok es.
  Proof.
    induction e as [c|n|l IHl r IHr|l IHl r IHr|l IHl r IHr|l IHl r IHr|b l IHl r IHr|u a IHa|c IHc a IHa b IHb|k a IHa]; intros es He Xe E;
      try (injection E as <-; repeat constructor; fail).
    - cbn [ExpandBrackets] in E. apply bind_Ok in E as (ls & E1 & E). apply bind_Ok in E as (rs & E2 & E). injection E as <-.
      apply HSum in He as [Hl Hr]. destruct Xe as [Xl Xr]. apply Forall_app. split; [exact (IHl _ Hl Xl E1)|exact (IHr _ Hr Xr E2)].
    - cbn [ExpandBrackets] in E. apply bind_Ok in E as (ls & E1 & E). apply bind_Ok in E as (rs & E2 & E). apply bind_Ok in E as (rs' & E3 & E). injection E as <-.
      apply HSub in He as [Hl Hr]. destruct Xe as [Xl Xr]. apply Forall_app. split; [exact (IHl _ Hl Xl E1)|]. apply map_res_Forall2 in E3.
      pose proof (IHr _ Hr Xr E2) as Fr. rewrite Forall_forall in Fr. eapply Forall2_right; [|exact E3]. intros x y Hx Ey.
      exact (proj1 (proj2 (mul_term fuel)) (Const V (Some (opp v1))) x y I (Fr x Hx) Ey).
    - cbn [ExpandBrackets] in E. apply bind_Ok in E as (ls & E1 & E). apply bind_Ok in E as (rs & E2 & E). apply bind_Ok in E as (ts & E3 & E). injection E as <-.
      apply HProduct in He as [Hl Hr]. destruct Xe as [Xl Xr]. apply map_res_Forall2 in E3. pose proof (IHl _ Hl Xl E1) as Fl. pose proof (IHr _ Hr Xr E2) as Fr. rewrite Forall_forall in Fl, Fr.
      apply Forall_concat. eapply Forall2_right; [|exact E3]. intros x y Hx Ey. apply map_res_Forall2 in Ey. eapply Forall2_right; [|exact Ey].
      intros p q Hp Eq. exact (proj1 (proj2 (mul_term fuel)) _ _ _ (Fl x Hx) (Fr p Hp) Eq).
    - cbn [ExpandBrackets] in E. apply bind_Ok in E as (ls & E1 & E). apply bind_Ok in E as (rs & E2 & E). apply bind_Ok in E as (s & E3 & E).
      pose proof (proj1 (Hgood _ He)) as HD. apply HDivide in He as (_ & Hl & Hr). destruct Xe as [Xl Nr]. apply map_res_Forall2 in E. pose proof (IHl _ Hl Xl E1) as Fl. rewrite Forall_forall in Fl.
      pose proof (fold_add_nq _ _ (expand_nq _ _ _ Hr Nr E2) (Const V (Some v0)) _ K0 E3) as Gs. apply goodF_split in Gs as [_ Ns].
      eapply Forall2_right; [|exact E]. intros x y Hx Ey. exact (proj2 (proj2 (mul_term fuel)) _ _ _ (Fl x Hx) Ns Ey).
    - destruct Xe.
    - destruct u; try (injection E as <-; repeat constructor; fail). cbn [ExpandBrackets] in E. apply bind_Ok in E as (ts & E1 & E). injection E as <-.
      apply Forall_map. apply Forall_forall. intros x _. apply conj_term.
  Qed.

  (** ** Terms *)
  Variable T : Type.
  Variables (text : expr -> T) (same_text : T -> T -> bool).
  (** The keys: the expressions whose texts are compared. *)
  Variable Q : expr -> Prop.
  Hypothesis Htext : forall a b, Q a -> Q b -> same_text (text a) (text b) = true -> forall rho, eval rho a = eval rho b.
  Variable sort_factors : list expr -> list expr.
  Hypothesis sort_factors_perm : forall l, Permutation l (sort_factors l).
  Variable sort_terms : list (term V T) -> list (term V T).
  Hypothesis sort_terms_perm : forall l, Permutation l (sort_terms l).
  Notation adde := (addExpression V v0 mul inv eq0 isZero isOne isAbsZero).
  Notation mkt := (mk_term V v0 v1 mul inv eq0 isZero isOne isAbsZero T text sort_factors).
  Notation texpr := (term_expression V v0 mul inv eq0 isZero isOne isAbsZero T).
  Definition okst (st : option V * list expr * expr) : Prop := let '(p, fs, d) := st in okc p /\ Forall H fs /\ H d /\ divides d.
  Definition sval (rho : str -> V) (p : option V) (fs : list expr) (d : expr) : option V := lift2 mul p (odiv (oprod (map (eval rho) fs)) (eval rho d)).
  Lemma adde_ok fuel e : forall p fs d p' fs' d', term_ok e -> H e -> okst (p, fs, d) -> adde fuel e (p, fs, d) = Ok (p', fs', d') ->
    okst (p', fs', d') /\ forall rho, ref (lift2 mul (sval rho p fs d) (eval rho e)) (sval rho p' fs' d').
  Proof.
    assert (Leaf : forall e p fs d p' fs' d', H e -> okst (p, fs, d) -> Ok (p, fs ++ [e], d) = Ok (p', fs', d') ->
      okst (p', fs', d') /\ forall rho, ref (lift2 mul (sval rho p fs d) (eval rho e)) (sval rho p' fs' d')).
    { intros x p fs d p' fs' d' Hx (Op & Of & Od & Dd) E. injection E as <- <- <-. split; [split; [exact Op|split; [|split; [exact Od|exact Dd]]]; apply Forall_app; split; [exact Of|repeat constructor; exact Hx]|].
      intros rho v E. unfold sval in *. rewrite map_app, oprod_app. cbn [map oprod fold_right]. destruct p as [p|], (oprod (map (eval rho) fs)) as [f|], (eval rho d) as [d0|], (eval rho x) as [x0|]; cbn in E; try discriminate; try (destruct (eq0 d0); discriminate).
      cbn. destruct (eq0 d0) eqn:Ed; [discriminate|]. cbn in E |- *. injection E as <-. f_equal. field. intro X. apply eq0_spec in X. congruence. }
    induction e as [c|n|l IHl r IHr|l IHl r IHr|l IHl r IHr|l IHl r IHr|b l IHl r IHr|u a IHa|c IHc a IHa b IHb|k a IHa]; intros p fs d p' fs' d' Te He O E;
      try exact (Leaf _ _ _ _ _ _ _ He O E); try (destruct Te; fail).
    - cbn in E. injection E as <- <- <-. destruct O as (Op & Of & Od & Dd). split; [split; [apply okc_mul; [exact Op|now apply Hokc]|auto]|].
      intro rho. unfold sval. rewrite <- !omul_assoc. rewrite (omul_comm (odiv _ _)). apply ref_refl.
    - cbn [addExpression] in E. apply bind_Ok in E as ([[p1 f1] d1] & E1 & E). destruct Te as [Tl Tr]. apply HProduct in He as [Hl Hr].
      destruct (IHl _ _ _ _ _ _ Tl Hl O E1) as [O1 R1]. destruct (IHr _ _ _ _ _ _ Tr Hr O1 E) as [O2 R2]. split; [exact O2|]. intro rho.
      eapply ref_trans; [|exact (R2 rho)]. cbn [Model.eval]. rewrite omul_assoc. apply ref_lift2; [apply R1|apply ref_refl].
    - cbn [addExpression] in E. apply bind_Ok in E as ([[p1 f1] d1] & E1 & E). apply bind_Ok in E as (d2 & E2 & E). injection E as <- <- <-.
      destruct Te as [Tl Nr]. pose proof (proj1 (Hgood _ He)) as HD. apply HDivide in He as (_ & Hl & Hr). destruct (IHl _ _ _ _ _ _ Tl Hl O E1) as [(Op & Of & Od & Dd) R1].
      destruct (mul_ok _ _ _ _ Od Hr E2) as [Hd Rd]. split; [split; [exact Op|split; [exact Of|split; [exact Hd|left; exact HD]]]|]. intro rho. specialize (R1 rho). specialize (Rd rho). cbn [Model.eval].
      intros v Ev. destruct (sval rho p fs d) as [s|] eqn:Es; [|discriminate]. destruct (eval rho l) as [x|] eqn:Ex; [|discriminate]. destruct (eval rho r) as [y|] eqn:Ey; [|discriminate].
      cbn in Ev. destruct (eq0 y) eqn:E0; [discriminate|]. cbn in Ev. injection Ev as <-. specialize (R1 _ eq_refl). unfold sval in R1 |- *.
      destruct p1 as [p1|], (oprod (map (eval rho) f1)) as [f|], (eval rho d1) as [z|]; cbn in R1; try discriminate; try (destruct (eq0 z); discriminate).
      destruct (eq0 z) eqn:Ez; [discriminate|]. cbn in R1. injection R1 as R1. rewrite (Rd _ eq_refl). cbn.
      assert (Hy : y <> v0) by (intro X; apply eq0_spec in X; congruence). assert (Hz : z <> v0) by (intro X; apply eq0_spec in X; congruence).
      rewrite (nz_mul V v0 v1 add mul sub opp div inv FT eq0 eq0_spec z y Ez E0). cbn. f_equal.
      transitivity (div (mul p1 (div f z)) y); [field; auto|]. rewrite R1. field. exact Hy.
  Qed.
  (** What is known of a term: its factors are fine and its key tells the value of its factors over its divisor. *)
  Definition tok (t : term V T) : Prop :=
    okc (prefactor V T t) /\ Forall H (factors V T t) /\ H (divisor V T t) /\ divides (divisor V T t) /\
    exists q, Q q /\ key V T t = text q /\ forall rho, ref (odiv (oprod (map (eval rho) (factors V T t))) (eval rho (divisor V T t))) (eval rho q).
  Definition tval' (rho : str -> V) (t : term V T) : option V := sval rho (prefactor V T t) (factors V T t) (divisor V T t).
  Definition key_ok fuel e : Prop := forall p fs d t q, adde fuel e (Some v1, [], Const V (Some v1)) = Ok (p, fs, d) ->
    fold_res (e_mul fuel) (sort_factors fs) (Const V (Some v1)) = Ok t -> e_div fuel t d = Ok q -> Q q.
  Lemma mkt_ok fuel e t : key_ok fuel e -> term_ok e -> H e -> mkt fuel e = Ok t -> tok t /\ forall rho, ref (eval rho e) (tval' rho t).
  Proof.
    intros Qe Te He E. unfold mk_term in E. apply bind_Ok in E as ([[p fs] d] & E1 & E). apply bind_Ok in E as (t0 & E2 & E). apply bind_Ok in E as (q & E3 & E). injection E as <-.
    assert (O0 : okst (Some v1, [], Const V (Some v1))) by (split; [exact K1|split; [constructor|split; [exact (Hconst (Some v1) K1)|right; reflexivity]]]).
    destruct (adde_ok _ _ _ _ _ _ _ _ Te He O0 E1) as [(Op & Of & Od & Dd) R].
    assert (Of' : Forall H (sort_factors fs)) by (rewrite Forall_forall in *; intros x Hx; apply Of; eapply Permutation_in; [apply Permutation_sym, sort_factors_perm|exact Hx]).
    destruct (fold_mul_ok _ _ Of' _ _ (Hconst (Some v1) K1) E2) as [Ht Rt]. destruct (div_ok _ _ _ _ Dd Ht Od E3) as [Hq Rq].
    assert (P : forall rho, oprod (map (eval rho) (sort_factors fs)) = oprod (map (eval rho) fs)) by (intro rho; apply oprod_perm, Permutation_map, Permutation_sym, sort_factors_perm).
    split; [split; [exact Op|split; [exact Of'|split; [exact Od|split; [exact Dd|]]]]|].
    - exists q. split; [exact (Qe _ _ _ _ _ E1 E2 E3)|split; [reflexivity|]]. intro rho. cbn [factors divisor]. eapply ref_trans; [|exact (Rq rho)]. apply ref_odiv; [|apply ref_refl].
      eapply ref_trans; [|exact (Rt rho)]. cbn [Model.eval]. rewrite omul_1. apply ref_refl.
    - intro rho. unfold tval'. cbn [prefactor factors divisor]. eapply ref_trans; [|unfold sval; rewrite P; exact (R rho)].
      unfold sval. cbn [map oprod fold_right Model.eval]. intros v Ev. rewrite Ev. cbn. destruct (eq0 v1) eqn:E1'.
      + apply eq0_spec in E1'. exfalso. exact (F_1_neq_0 FT E1').
      + cbn. f_equal. field. exact (F_1_neq_0 FT).
  Qed.
  Lemma texpr_ok fuel t e : tok t -> texpr fuel t = Ok e -> H e /\ forall rho, ref (tval' rho t) (eval rho e).
  Proof.
    intros (Op & Of & Od & Dd & _) E. unfold term_expression in E. apply bind_Ok in E as (pf & E1 & E).
    destruct (fold_mul_ok _ _ Of _ _ (Hconst _ Op) E1) as [Hp Rp]. destruct (div_ok _ _ _ _ Dd Hp Od E) as [He Re]. split; [exact He|].
    intro rho. eapply ref_trans; [|exact (Re rho)]. eapply ref_trans; [|apply ref_odiv; [exact (Rp rho)|apply ref_refl]]. cbn [Model.eval]. unfold tval', sval.
    intros v Ev. destruct (prefactor V T t) as [p|], (oprod (map (eval rho) (factors V T t))) as [f|], (eval rho (divisor V T t)) as [z|]; cbn in Ev; try discriminate; try (destruct (eq0 z); discriminate).
    cbn. destruct (eq0 z) eqn:Ez; [discriminate|]. cbn in Ev. injection Ev as <-. f_equal. field. intro X. apply eq0_spec in X. congruence.
  Qed.
  Notation grp := (group V add T same_text).
  Lemma group_ok l : forall cur, tok cur -> Forall tok l -> Forall tok (grp cur l) /\
    forall rho, ref (osum (map (tval' rho) (cur :: l))) (osum (map (tval' rho) (grp cur l))).
  Proof.
    induction l as [|t l IH]; intros cur Hc Hl; [split; [constructor; [exact Hc|constructor]|intro rho; apply ref_refl]|].
    inversion Hl as [|? ? Ht Hl']; subst. cbn [group]. destruct (same_text (key V T cur) (key V T t)) eqn:Es.
    - destruct Hc as (Op & Of & Od & Dd & q & Hq & Eq & Rq). destruct Ht as (Op2 & Of2 & Od2 & Dd2 & q2 & Hq2 & Eq2 & Rq2). rewrite Eq, Eq2 in Es.
      pose proof (Htext _ _ Hq Hq2 Es) as TX.
      destruct (IH (mkTerm V T (lift2 add (prefactor V T cur) (prefactor V T t)) (factors V T cur) (divisor V T cur) (key V T cur))) as [F R]; [|exact Hl'|].
      { split; [apply okc_lift2; [exact Kadd|exact Op|exact Op2]|split; [exact Of|split; [exact Od|split; [exact Dd|]]]]. exists q. split; [exact Hq|split; [exact Eq|exact Rq]]. }
      split; [exact F|]. intro rho. eapply ref_trans; [|exact (R rho)]. cbn [map osum fold_right]. rewrite oadd_assoc. apply ref_lift2; [|apply ref_refl].
      unfold tval', sval. cbn [prefactor factors divisor]. specialize (Rq rho). specialize (Rq2 rho). rewrite (TX rho) in Rq.
      intros v Ev. destruct (odiv (oprod (map (eval rho) (factors V T cur))) (eval rho (divisor V T cur))) as [a|]; [|destruct (prefactor V T cur); discriminate].
      destruct (odiv (oprod (map (eval rho) (factors V T t))) (eval rho (divisor V T t))) as [a2|]; [|destruct (prefactor V T cur), (prefactor V T t); discriminate].
      specialize (Rq _ eq_refl). specialize (Rq2 _ eq_refl). assert (a = a2) by congruence. subst a2.
      destruct (prefactor V T cur), (prefactor V T t); try discriminate. cbn in Ev |- *. injection Ev as <-. f_equal. ring.
    - destruct (IH t Ht Hl') as [F R]. split; [constructor; auto|]. intro rho. cbn [map osum fold_right]. apply ref_lift2; [apply ref_refl|exact (R rho)].
  Qed.
  Notation Simp := (Simplify V v0 v1 add mul sub opp inv eq0 isZero isOne isAbsZero isNeg uval T text same_text sort_factors sort_terms).
  Lemma total_ok fuel ts : Forall tok ts -> forall a e', H a -> fold_res (fun total t => bind (texpr fuel t) (e_add fuel total)) ts a = Ok e' ->
    H e' /\ forall rho, ref (lift2 add (eval rho a) (osum (map (tval' rho) ts))) (eval rho e').
  Proof.
    induction 1 as [|x l Hx Hl IH]; intros a e' Ha E; cbn [fold_res] in E.
    - injection E as <-. split; [exact Ha|]. intros rho v E. cbn in E. destruct (eval rho a); [|discriminate]. cbn in E. injection E as <-. f_equal. ring.
    - apply bind_Ok in E as (b & E1 & E). apply bind_Ok in E1 as (x' & Ex & E1). destruct (texpr_ok _ _ _ Hx Ex) as [Hx' Rx].
      destruct (add_ok _ _ _ _ Ha Hx' E1) as [Hb R]. destruct (IH _ _ Hb E) as [He R']. split; [exact He|].
      intro rho. eapply ref_trans; [|exact (R' rho)]. cbn [map osum fold_right]. fold (osum (map (tval' rho) l)). rewrite oadd_assoc. apply ref_lift2; [|apply ref_refl].
      eapply ref_trans; [|exact (R rho)]. apply ref_lift2; [apply ref_refl|apply Rx].
  Qed.
  Lemma simplify_ok fuel e e' : H e -> expandable V e -> (forall es, expand fuel e = Ok es -> Forall (key_ok fuel) es) -> Simp fuel e = Ok e' -> H e' /\ forall rho, real_params rho -> ref (eval rho e) (eval rho e').
  Proof.
    intros He Xe Qe E. unfold Simplify in E. apply bind_Ok in E as (es & E1 & E). apply bind_Ok in E as (ts & E2 & E).
    destruct (expand_ok _ _ _ He E1) as [Fh Rh]. pose proof (expand_term _ _ _ He Xe E1) as Ft. specialize (Qe _ E1). apply map_res_Forall2 in E2.
    assert (N : Forall tok ts /\ forall rho, ref (osum (map (eval rho) es)) (osum (map (tval' rho) ts))).
    { clear - isOne_1 Qe E2 Fh Ft Hgood Hher K0 K1 Kadd Kmul Kopp Kinv tZero tOne tAbs eq0_spec FT sort_factors_perm.
      induction E2 as [|a b x y Eb F IH]; [split; [constructor|intro rho; apply ref_refl]|]. inversion Fh as [|? ? Ha Fh']; subst. inversion Ft as [|? ? Ta Ft']; subst. inversion Qe as [|? ? Qa Qe']; subst.
      destruct (IH Qe' Fh' Ft') as [Fc Rc]. destruct (mkt_ok _ _ _ Qa Ta Ha Eb) as [Tb Rb]. split; [constructor; auto|]. intro rho. cbn [map osum fold_right]. apply ref_lift2; [apply Rb|apply Rc]. }
    destruct N as [Ftok Rt].
    assert (Fs : Forall tok (sort_terms ts)) by (rewrite Forall_forall in *; intros x Hx; apply Ftok; eapply Permutation_in; [apply Permutation_sym, sort_terms_perm|exact Hx]).
    assert (G : Forall tok (groupExpressions V add T same_text (sort_terms ts)) /\ forall rho, ref (osum (map (tval' rho) (sort_terms ts))) (osum (map (tval' rho) (groupExpressions V add T same_text (sort_terms ts))))).
    { destruct (sort_terms ts) as [|t l]; [split; [constructor|intro rho; apply ref_refl]|]. inversion Fs; subst. apply group_ok; assumption. }
    destruct G as [Fg Rg]. destruct (total_ok _ _ Fg _ _ (Hconst (Some v0) K0) E) as [He' R']. split; [exact He'|]. intros rho R.
    eapply ref_trans; [exact (Rh rho R)|]. eapply ref_trans; [exact (Rt rho)|]. eapply ref_trans; [|exact (R' rho)]. cbn [Model.eval]. rewrite oadd_0.
    eapply ref_trans; [|exact (Rg rho)]. rewrite (osum_perm _ (map (tval' rho) (sort_terms ts))); [apply ref_refl|]. apply Permutation_map, sort_terms_perm.
  Qed.

  Lemma key_ok_H fuel e : (forall x, H x -> Q x) -> term_ok e -> H e -> key_ok fuel e.
  Proof.
    intros HQ Te He p fs d t q E1 E2 E3. apply HQ.
    assert (O0 : okst (Some v1, [], Const V (Some v1))) by (split; [exact K1|split; [constructor|split; [exact (Hconst (Some v1) K1)|right; reflexivity]]]).
    destruct (adde_ok _ _ _ _ _ _ _ _ Te He O0 E1) as [(Op & Of & Od & Dd) R].
    assert (Of' : Forall H (sort_factors fs)) by (rewrite Forall_forall in *; intros x Hx; apply Of; eapply Permutation_in; [apply Permutation_sym, sort_factors_perm|exact Hx]).
    destruct (fold_mul_ok _ _ Of' _ _ (Hconst (Some v1) K1) E2) as [Ht Rt]. exact (proj1 (div_ok _ _ _ _ Dd Ht Od E3)).
  Qed.
  Lemma keys_H fuel e : (forall x, H x -> Q x) -> H e -> expandable V e -> forall es, expand fuel e = Ok es -> Forall (key_ok fuel) es.
  Proof.
    intros HQ He Xe es E. pose proof (proj1 (expand_ok _ _ _ He E)) as Fh. pose proof (expand_term _ _ _ He Xe E) as Ft.
    rewrite Forall_forall in *. intros x Hx. apply key_ok_H; auto.
  Qed.

  (** ** Polynomials: no quotient among the terms *)
  Notation leaves := (polynomial V Q).
  (** Products of leaves. *)
  Fixpoint monomial (e : expr) : Prop :=
    match e with
    | Const _ _ => True
    | Product _ l r => monomial l /\ monomial r
    | Sum _ _ _ | Sub _ _ _ | Divide _ _ _ | Bin _ _ _ _ => False
    | _ => Q e
    end.
  Lemma mul_monomial fuel :
    (forall c e e', monomial e -> simp fuel c e = Ok e' -> monomial e') /\ (forall A B e', monomial A -> monomial B -> e_mul fuel A B = Ok e' -> monomial e').
  Proof.
    induction fuel as [|fuel (IHs & IHm)]; [repeat split; discriminate|]. split.
    - intros c e e' He E. rewrite simp_S in E. destruct (as_const V e) as [k|] eqn:Ek; [injection E as <-; exact I|].
      destruct (otest V isOne c); [now injection E as <-|]. destruct (otest V isZero c); [injection E as <-; exact I|].
      destruct (as_product V e) as [[l r]|] eqn:Ep.
      + apply as_product_Some in Ep as ->. apply bind_Ok in E as (m & E1 & E). destruct He as [Hl Hr]. exact (IHm _ _ _ (IHs _ _ _ Hl E1) Hr E).
      + injection E as <-. split; [exact I|exact He].
    - intros A B e' HA HB E. rewrite mul_S in E. destruct (as_const V A) as [a|] eqn:Ea; [exact (IHs _ _ _ HB E)|].
      destruct (as_const V B) as [b|] eqn:Eb; [exact (IHs _ _ _ HA E)|].
      destruct (as_divide V A) as [[l r]|] eqn:Ed; [apply as_divide_Some in Ed as ->; destruct HA|].
      destruct (as_divide V B) as [[l r]|] eqn:Ed'; [apply as_divide_Some in Ed' as ->; destruct HB|].
      destruct (is_sum_or_sub V A); injection E as <-; split; assumption.
  Qed.
  Lemma expand_monomial fuel e : forall es, leaves e -> expand fuel e = Ok es -> Forall monomial es.
  Proof.
    induction e as [c|n|l IHl r IHr|l IHl r IHr|l IHl r IHr|l IHl r IHr|b l IHl r IHr|u a IHa|c IHc a IHa b IHb|k a IHa]; intros es Xe E;
      try (destruct Xe; fail); try (injection E as <-; constructor; [exact Xe|constructor]; fail).
    - cbn [ExpandBrackets] in E. apply bind_Ok in E as (ls & E1 & E). apply bind_Ok in E as (rs & E2 & E). injection E as <-.
      destruct Xe as [Xl Xr]. apply Forall_app. split; [exact (IHl _ Xl E1)|exact (IHr _ Xr E2)].
    - cbn [ExpandBrackets] in E. apply bind_Ok in E as (ls & E1 & E). apply bind_Ok in E as (rs & E2 & E). apply bind_Ok in E as (rs' & E3 & E). injection E as <-.
      destruct Xe as [Xl Xr]. apply Forall_app. split; [exact (IHl _ Xl E1)|]. apply map_res_Forall2 in E3.
      pose proof (IHr _ Xr E2) as Fr. rewrite Forall_forall in Fr. eapply Forall2_right; [|exact E3]. intros x y Hx Ey.
      exact (proj2 (mul_monomial fuel) (Const V (Some (opp v1))) x y I (Fr x Hx) Ey).
    - cbn [ExpandBrackets] in E. apply bind_Ok in E as (ls & E1 & E). apply bind_Ok in E as (rs & E2 & E). apply bind_Ok in E as (ts & E3 & E). injection E as <-.
      destruct Xe as [Xl Xr]. apply map_res_Forall2 in E3. pose proof (IHl _ Xl E1) as Fl. pose proof (IHr _ Xr E2) as Fr. rewrite Forall_forall in Fl, Fr.
      apply Forall_concat. eapply Forall2_right; [|exact E3]. intros x y Hx Ey. apply map_res_Forall2 in Ey. eapply Forall2_right; [|exact Ey].
      intros p q Hp Eq. exact (proj2 (mul_monomial fuel) _ _ _ (Fl x Hx) (Fr p Hp) Eq).
    - destruct u; try (destruct Xe; fail); injection E as <-; (constructor; [exact Xe|constructor]).
  Qed.

  Hypotheses (Q1 : Q (Const V (Some v1))) (Qmul : forall a b, Q a -> Q b -> Q (Product V a b)).
  Definition atom (e : expr) : Prop := Q e /\ as_const V e = None /\ as_divide V e = None /\ as_product V e = None.
  Lemma adde_monomial fuel e : forall p fs d p' fs' d', monomial e -> Forall atom fs -> adde fuel e (p, fs, d) = Ok (p', fs', d') -> Forall atom fs' /\ d' = d.
  Proof.
    assert (Leaf : forall e (p : option V) fs (d : expr) (p' : option V) fs' d', atom e -> Forall atom fs -> Ok (p, fs ++ [e], d) = Ok (p', fs', d') -> Forall atom fs' /\ d' = d).
    { intros x p fs d p' fs' d' Ax F E. injection E as <- <- <-. split; [|reflexivity]. apply Forall_app. split; [exact F|]. constructor; [exact Ax|constructor]. }
    induction e as [c|n|l IHl r IHr|l IHl r IHr|l IHl r IHr|l IHl r IHr|b l IHl r IHr|u a IHa|c IHc a IHa b IHb|k a IHa]; intros p fs d p' fs' d' M F E; try (destruct M; fail);
      try (refine (Leaf _ _ _ _ _ _ _ _ F E); split; [exact M|repeat split]; fail).
    - cbn in E. injection E as <- <- <-. auto.
    - cbn [addExpression] in E. apply bind_Ok in E as ([[p1 f1] d1] & E1 & E). destruct M as [Ml Mr]. destruct (IHl _ _ _ _ _ _ Ml F E1) as [F1 ->]. exact (IHr _ _ _ _ _ _ Mr F1 E).
  Qed.
  Lemma fold_monomial fuel l : Forall atom l -> forall a e', Q a -> a = Const V (Some v1) \/ as_const V a = None /\ as_divide V a = None ->
    fold_res (e_mul fuel) l a = Ok e' -> Q e' /\ (e' = Const V (Some v1) \/ as_const V e' = None /\ as_divide V e' = None).
  Proof.
    induction 1 as [|x l (Qx & Cx & Dx & Px) F IH]; intros a e' Qa Sa E; cbn [fold_res] in E; [injection E as <-; auto|].
    apply bind_Ok in E as (b & E1 & E). destruct fuel as [|fuel]; [discriminate|]. rewrite mul_S in E1. destruct Sa as [-> | [Ca Da]].
    - cbn [as_const] in E1. destruct fuel as [|fuel]; [discriminate|]. rewrite simp_S, Cx in E1. cbn [otest] in E1. rewrite isOne_1 in E1. injection E1 as <-. exact (IH _ _ Qx (or_intror (conj Cx Dx)) E).
    - rewrite Ca, Cx, Da, Dx in E1. destruct (is_sum_or_sub V a); injection E1 as <-; (refine (IH _ _ _ _ E); [auto|right; split; reflexivity]).
  Qed.
  Lemma keys_monomial fuel e : leaves e -> forall es, expand fuel e = Ok es -> Forall (key_ok fuel) es.
  Proof.
    intros L es E. pose proof (expand_monomial _ _ _ L E) as F. eapply Forall_impl; [|exact F]. clear F E. intros x M p fs d t q E1 E2 E3.
    destruct (adde_monomial _ _ _ _ _ _ _ _ M (Forall_nil _) E1) as [Fa ->].
    assert (Fa' : Forall atom (sort_factors fs)) by (rewrite Forall_forall in *; intros y Hy; apply Fa; eapply Permutation_in; [apply Permutation_sym, sort_factors_perm|exact Hy]).
    destruct (fold_monomial _ _ Fa' _ _ Q1 (or_introl eq_refl) E2) as [Qt St]. destruct fuel as [|fuel]; [discriminate|]. rewrite div_S in E3. destruct (const_test V isAbsZero t) eqn:Ez.
    - apply const_test_true in Ez as (y & -> & Ey). destruct St as [St | [St _]]; [|discriminate]. injection St as ->. exfalso. exact (F_1_neq_0 FT (tAbs v1 K1 Ey)).
    - cbn [as_const otest] in E3. rewrite isOne_1 in E3. now injection E3 as <-.
  Qed.
End SimplifyProofs.

(** ** Simplify returns *)
Section SimplifyReturns.
  Variables (V : Type) (v0 v1 : V) (add mul sub : V -> V -> V) (opp : V -> V) (inv : V -> V) (eq0 : V -> bool).
  Variables (isZero isOne isAbsZero isNeg : V -> bool) (uval : unop -> V -> option V).
  Variable T : Type.
  Variables (text : expr V -> T) (same_text : T -> T -> bool) (sort_factors : list (expr V) -> list (expr V)) (sort_terms : list (term V T) -> list (term V T)).
  Definition returns {A} (g : nat -> res A) : Prop := exists f0 x, forall f, f0 <= f -> g f = Ok x.
  Lemma returns_Ok {A} (x : A) : returns (fun _ => Ok x). Proof. exists 0, x. reflexivity. Qed.
  Lemma returns_bind {A B} (g : nat -> res A) (k : nat -> A -> res B) : returns g -> (forall a, returns (fun f => k f a)) -> returns (fun f => bind (g f) (k f)).
  Proof. intros (f0 & x & E) Hk. destruct (Hk x) as (f1 & y & E1). exists (f0 + f1), y. intros f Hf. rewrite E by lia. apply E1. lia. Qed.
  Lemma returns_map {A B} (g : nat -> A -> res B) l : (forall a, returns (fun f => g f a)) -> returns (fun f => map_res (g f) l).
  Proof. intro Hg. induction l as [|a l IH]; cbn [map_res]; [apply returns_Ok|]. apply returns_bind; [apply Hg|]. intro b. apply returns_bind; [exact IH|]. intro bs. apply returns_Ok. Qed.
  Lemma returns_fold {A B} (g : nat -> B -> A -> res B) l : (forall b a, returns (fun f => g f b a)) -> forall b, returns (fun f => fold_res (g f) l b).
  Proof.
    intro Hg. induction l as [|a l IH]; intro b; cbn [fold_res]; [apply returns_Ok|].
    apply (returns_bind (fun f => g f b a) (fun f => fold_res (g f) l)); [apply Hg|exact IH].
  Qed.
  Notation mulr := (mul_returns V v0 mul inv eq0 isZero isOne isAbsZero).
  Notation divr := (div_returns V v0 mul inv eq0 isZero isOne isAbsZero).
  Notation addr := (add_returns V v0 v1 add mul sub opp inv eq0 isZero isOne isAbsZero isNeg).
  Lemma expand_returns e : returns (fun f => ExpandBrackets V v0 v1 add mul sub opp inv eq0 isZero isOne isAbsZero isNeg uval f e).
  Proof.
    induction e as [c|n|l IHl r IHr|l IHl r IHr|l IHl r IHr|l IHl r IHr|b l IHl r IHr|u a IHa|c IHc a IHa b IHb|k a IHa]; cbn [ExpandBrackets]; try apply returns_Ok.
    - apply returns_bind; [exact IHl|]. intro ls. apply returns_bind; [exact IHr|]. intro rs. apply returns_Ok.
    - apply returns_bind; [exact IHl|]. intro ls. apply returns_bind; [exact IHr|]. intro rs. apply returns_bind; [|intro rs'; apply returns_Ok].
      apply (returns_map (fun f => e_mul V v0 mul inv eq0 isZero isOne isAbsZero f (Const V (Some (opp v1))))). intro a. apply mulr.
    - apply returns_bind; [exact IHl|]. intro ls. apply returns_bind; [exact IHr|]. intro rs. apply returns_bind; [|intro rs'; apply returns_Ok].
      apply (returns_map (fun f a => map_res (e_mul V v0 mul inv eq0 isZero isOne isAbsZero f a) rs)). intro a. apply (returns_map (fun f => e_mul V v0 mul inv eq0 isZero isOne isAbsZero f a)). intro b. apply mulr.
    - apply returns_bind; [exact IHl|]. intro ls. apply returns_bind; [exact IHr|]. intro rs.
      apply (returns_bind (fun f => fold_res (e_add V v0 v1 add mul sub opp inv eq0 isZero isOne isAbsZero isNeg f) rs (Const V (Some v0)))
        (fun f s => map_res (fun a => e_div V v0 mul inv eq0 isZero isOne isAbsZero f a s) ls)).
      + apply returns_fold. intros b a. apply addr.
      + intro s. apply (returns_map (fun f a => e_div V v0 mul inv eq0 isZero isOne isAbsZero f a s)). intro a. apply divr.
    - destruct u; try apply returns_Ok. apply returns_bind; [exact IHa|]. intro ts. apply returns_Ok.
  Qed.
  Lemma adde_returns e : forall st, returns (fun f => addExpression V v0 mul inv eq0 isZero isOne isAbsZero f e st).
  Proof.
    induction e as [c|n|l IHl r IHr|l IHl r IHr|l IHl r IHr|l IHl r IHr|b l IHl r IHr|u a IHa|c IHc a IHa b IHb|k a IHa]; intros [[p fs] d]; cbn [addExpression]; try apply returns_Ok.
    - apply (returns_bind (fun f => addExpression V v0 mul inv eq0 isZero isOne isAbsZero f l (p, fs, d)) (fun f => addExpression V v0 mul inv eq0 isZero isOne isAbsZero f r)); [apply IHl|exact IHr].
    - apply (returns_bind (fun f => addExpression V v0 mul inv eq0 isZero isOne isAbsZero f l (p, fs, d))
        (fun f '(p, fs, d) => bind (e_mul V v0 mul inv eq0 isZero isOne isAbsZero f d r) (fun d' => Ok (p, fs, d')))); [apply IHl|].
      intros [[p1 f1] d1]. apply returns_bind; [apply mulr|]. intro d'. apply returns_Ok.
  Qed.
  Lemma simplify_returns e : returns (fun f => Simplify V v0 v1 add mul sub opp inv eq0 isZero isOne isAbsZero isNeg uval T text same_text sort_factors sort_terms f e).
  Proof.
    unfold Simplify. apply returns_bind; [apply expand_returns|]. intro es.
    apply (returns_bind (fun f => map_res (mk_term V v0 v1 mul inv eq0 isZero isOne isAbsZero T text sort_factors f) es)
      (fun f ts => fold_res (fun total t => bind (term_expression V v0 mul inv eq0 isZero isOne isAbsZero T f t) (e_add V v0 v1 add mul sub opp inv eq0 isZero isOne isAbsZero isNeg f total))
         (groupExpressions V add T same_text (sort_terms ts)) (Const V (Some v0)))).
    - apply (returns_map (fun f => mk_term V v0 v1 mul inv eq0 isZero isOne isAbsZero T text sort_factors f)). intro a. unfold mk_term.
      apply (returns_bind (fun f => addExpression V v0 mul inv eq0 isZero isOne isAbsZero f a (Some v1, [], Const V (Some v1)))
        (fun f '(p, fs, d) => bind (fold_res (e_mul V v0 mul inv eq0 isZero isOne isAbsZero f) (sort_factors fs) (Const V (Some v1)))
           (fun t => bind (e_div V v0 mul inv eq0 isZero isOne isAbsZero f t d) (fun q => Ok (mkTerm V T p (sort_factors fs) d (text q)))))); [apply adde_returns|].
      intros [[p fs] d]. apply (returns_bind (fun f => fold_res (e_mul V v0 mul inv eq0 isZero isOne isAbsZero f) (sort_factors fs) (Const V (Some v1)))
        (fun f t => bind (e_div V v0 mul inv eq0 isZero isOne isAbsZero f t d) (fun q => Ok (mkTerm V T p (sort_factors fs) d (text q))))).
      + apply returns_fold. intros b c. apply mulr.
      + intro t. apply returns_bind; [apply divr|]. intro q. apply returns_Ok.
    - intro ts. apply (returns_fold (fun f total t => bind (term_expression V v0 mul inv eq0 isZero isOne isAbsZero T f t) (e_add V v0 v1 add mul sub opp inv eq0 isZero isOne isAbsZero isNeg f total))).
      intros b t. apply (returns_bind (fun f => term_expression V v0 mul inv eq0 isZero isOne isAbsZero T f t) (fun f => e_add V v0 v1 add mul sub opp inv eq0 isZero isOne isAbsZero isNeg f b)); [|intro x; apply addr].
      unfold term_expression. apply (returns_bind (fun f => fold_res (e_mul V v0 mul inv eq0 isZero isOne isAbsZero f) (factors V T t) (Const V (prefactor V T t)))
        (fun f pf => e_div V v0 mul inv eq0 isZero isOne isAbsZero f pf (divisor V T t))); [apply returns_fold; intros x y; apply mulr|]. intro x. apply divr.
  Qed.
End SimplifyReturns.
