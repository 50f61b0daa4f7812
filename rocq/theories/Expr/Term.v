(** The operators on expressions return for every pair of expressions. *)
From Verif.Common Require Import Prelude.
From Verif.Expr Require Import Model Proofs.

Section Term.
  Variables (V : Type) (v0 v1 : V) (add mul sub : V -> V -> V) (opp : V -> V) (inv : V -> V) (eq0 : V -> bool).
  Variables (isZero isOne isAbsZero isNeg : V -> bool).
  Notation expr := (expr V).
  Notation simp := (simplify_multiplication V v0 mul inv eq0 isZero isOne isAbsZero).
  Notation e_mul := (e_mul V v0 mul inv eq0 isZero isOne isAbsZero).
  Notation e_div := (e_div V v0 mul inv eq0 isZero isOne isAbsZero).
  Notation oinv := (oinv V inv eq0).
  Notation lift2 := (lift2 V).
  Notation sca := (simplify_constant_addition V v0 v1 add mul sub opp inv eq0 isZero isOne isAbsZero isNeg).
  Notation e_add := (e_add V v0 v1 add mul sub opp inv eq0 isZero isOne isAbsZero isNeg).
  Notation spa := (simplify_product_addition V v0 v1 mul sub opp inv eq0 isZero isOne isAbsZero isNeg).
  Notation e_sub := (e_sub V v0 v1 mul sub opp inv eq0 isZero isOne isAbsZero).

  Lemma bind_mono {X} (r r' : res X) {Y} (k k' : X -> res Y) y : (forall x, r = Ok x -> r' = Ok x) ->
    (forall x, k x = Ok y -> k' x = Ok y) -> bind r k = Ok y -> bind r' k' = Ok y.
  Proof. intros H1 H2 H. apply bind_Ok in H as (x & E & H). rewrite (H1 _ E). now apply H2. Qed.

  Lemma mono_step f :
    (forall c e x, simp f c e = Ok x -> simp (S f) c e = Ok x) /\
    (forall A B x, e_mul f A B = Ok x -> e_mul (S f) A B = Ok x) /\
    (forall A B x, e_div f A B = Ok x -> e_div (S f) A B = Ok x).
  Proof.
    induction f as [|f (Is & Im & Id)]; [repeat split; discriminate|]. split; [|split].
    - intros c e x H. rewrite simp_S in H |- *. destruct (as_const V e); [exact H|]. destruct (otest V isOne c); [exact H|].
      destruct (otest V isZero c); [exact H|]. destruct (as_product V e) as [[l r]|]; [|exact H]. revert H. apply bind_mono; intros; auto.
    - intros A B x H. rewrite mul_S in H |- *. destruct (as_const V A); [auto|]. destruct (as_const V B); [auto|].
      destruct (as_divide V A) as [[l r]|]; [revert H; apply bind_mono; intros; auto|].
      destruct (as_divide V B) as [[l r]|]; [revert H; apply bind_mono; intros; auto|exact H].
    - intros A B x H. rewrite div_S in H |- *. destruct (const_test V isAbsZero A); [exact H|].
      destruct (as_const V B); [destruct (otest V isOne o); auto|].
      destruct (as_product V B) as [[l r]|].
      + destruct (as_const V l); [revert H; apply bind_mono; intros; auto|].
        destruct (as_const V r); [revert H; apply bind_mono; intros; auto|exact H].
      + destruct (as_divide V B) as [[l r]|]; [revert H; apply bind_mono; intros; auto|exact H].
  Qed.
  Lemma simp_mono f f' c e x : f <= f' -> simp f c e = Ok x -> simp f' c e = Ok x.
  Proof. intros L H. induction L; [exact H|]. now apply mono_step. Qed.
  Lemma mul_mono f f' A B x : f <= f' -> e_mul f A B = Ok x -> e_mul f' A B = Ok x.
  Proof. intros L H. induction L; [exact H|]. now apply mono_step. Qed.
  Lemma div_mono f f' A B x : f <= f' -> e_div f A B = Ok x -> e_div f' A B = Ok x.
  Proof. intros L H. induction L; [exact H|]. now apply mono_step. Qed.

  Definition cst (e : expr) : nat := match as_const V e with Some _ => 1 | None => 0 end.
  Fixpoint w (e : expr) : nat :=
    match e with
    | Product _ l r => w l + w r + cst r
    | Divide _ l r => w l + w r + 1
    | _ => 1
    end.
  Lemma w_pos e : 1 <= w e. Proof. induction e; simpl; lia. Qed.
  Lemma w_const e c : as_const V e = Some c -> w e = 1. Proof. destruct e; try discriminate. reflexivity. Qed.

  Definition Simp c e n := exists f x, simp f c e = Ok x /\ w x <= n.
  Definition Mul A B n := exists f x, e_mul f A B = Ok x /\ w x <= n.
  Definition Div A B n := exists f x, e_div f A B = Ok x /\ w x <= n.

  Lemma mul_then_div A B R n m : Mul A B n -> (forall x, w x <= n -> Div x R m) ->
    exists f y, bind (e_mul f A B) (fun x => e_div f x R) = Ok y /\ w y <= m.
  Proof.
    intros (f1 & x & E1 & W1) H. destruct (H x W1) as (f2 & y & E2 & W2). exists (Nat.max f1 f2), y.
    rewrite (mul_mono f1 _ _ _ x (Nat.le_max_l _ _) E1). cbn [bind]. rewrite (div_mono f2 _ _ _ y (Nat.le_max_r _ _) E2). auto.
  Qed.
  Lemma Mul_of A B n : (exists f x, match as_const V A, as_const V B, as_divide V A, as_divide V B with
        | Some a, _, _, _ => simp f a B
        | None, Some b, _, _ => simp f b A
        | None, None, Some (l, r), _ => bind (e_mul f l B) (fun x => e_div f x r)
        | None, None, None, Some (l, r) => bind (e_mul f A l) (fun x => e_div f x r)
        | None, None, None, None => if is_sum_or_sub V A then Ok (Product V B A) else Ok (Product V A B)
        end = Ok x /\ w x <= n) -> Mul A B n.
  Proof. intros (f & x & E & W). exists (S f), x. rewrite mul_S. auto. Qed.

  Lemma terminates W :
    (forall c e, 1 + w e <= W -> Simp c e (1 + w e)) /\
    (forall A B, w A + w B <= W -> Mul A B (w A + w B)) /\
    (forall B A, w A + w B <= W -> Div A B (w A + w B + 1)).
  Proof.
    induction W as [W IH] using lt_wf_ind.
    assert (Is : forall c e, 1 + w e < W -> Simp c e (1 + w e)) by (intros c e H; exact (proj1 (IH _ H) c e (le_n _))).
    assert (Im : forall A B, w A + w B < W -> Mul A B (w A + w B)) by (intros A B H; exact (proj1 (proj2 (IH _ H)) A B (le_n _))).
    assert (Id : forall A B, w A + w B < W -> Div A B (w A + w B + 1)) by (intros A B H; exact (proj2 (proj2 (IH _ H)) B A (le_n _))).
    assert (weaken_s : forall c e n m, Simp c e n -> n <= m -> Simp c e m) by (intros c e n m (f & x & E & L) H; exists f, x; split; [exact E|lia]).
    assert (weaken_d : forall A B n m, Div A B n -> n <= m -> Div A B m) by (intros A B n m (f & x & E & L) H; exists f, x; split; [exact E|lia]).
    (* a product of two things that are not both allowed to recurse at the same weight *)
    assert (Core : forall A B, w A + w B <= W -> (forall a, as_const V A = Some a -> Simp a B (w A + w B)) ->
       (forall b, as_const V A = None -> as_const V B = Some b -> Simp b A (w A + w B)) -> Mul A B (w A + w B)).
    { intros A B HW CA CB. apply Mul_of. destruct (as_const V A) as [a|] eqn:Ea.
      { destruct (CA a eq_refl) as (f & x & E & L). exists f, x. auto. }
      destruct (as_const V B) as [b|] eqn:Eb.
      { destruct (CB b eq_refl eq_refl) as (f & x & E & L). exists f, x. auto. }
      destruct (as_divide V A) as [[l r]|] eqn:Ed.
      { apply as_divide_Some in Ed as ->. cbn [w] in *. apply (mul_then_div l B r (w l + w B)); [apply Im; lia|]. intros x Hx.
        eapply weaken_d; [apply Id; lia|lia]. }
      destruct (as_divide V B) as [[l r]|] eqn:Ed'.
      { apply as_divide_Some in Ed' as ->. cbn [w] in *. apply (mul_then_div A l r (w A + w l)); [apply Im; lia|]. intros x Hx.
        eapply weaken_d; [apply Id; lia|lia]. }
      exists 0. destruct (is_sum_or_sub V A); eexists; (split; [reflexivity|]); cbn [w]; unfold cst; [rewrite Ea|rewrite Eb]; lia. }
    assert (Hs : forall c e, 1 + w e <= W -> Simp c e (1 + w e)).
    { intros c e HW. destruct (as_const V e) as [k|] eqn:Ek.
      { exists 1, (Const V (lift2 mul c k)). rewrite simp_S, Ek. split; [reflexivity|]. cbn [w]. lia. }
      destruct (otest V isOne c) eqn:T1; [exists 1, e; rewrite simp_S, Ek, T1; split; [reflexivity|lia]|].
      destruct (otest V isZero c) eqn:T0; [exists 1, (Const V (Some v0)); rewrite simp_S, Ek, T1, T0; split; [reflexivity|cbn [w]; lia]|].
      destruct (as_product V e) as [[l r]|] eqn:Ep.
      2:{ exists 1, (Product V (Const V c) e). rewrite simp_S, Ek, T1, T0, Ep. split; [reflexivity|]. cbn [w]. unfold cst. rewrite Ek. lia. }
      pose proof (as_product_Some _ _ _ _ Ep) as ->. cbn [w] in *. pose proof (w_pos l). pose proof (w_pos r).
      destruct (Is c l) as (f1 & m & E1 & W1); [lia|].
      assert (HM : Mul m r (1 + (w l + w r + cst r))).
      { assert (HM : Mul m r (w m + w r)).
        { apply Core; [lia| |].
          - intros a Ea. apply (w_const m) in Ea. eapply weaken_s; [apply Is; lia|lia].
          - intros b _ Eb. pose proof (w_const r b Eb) as Er. unfold cst in *. rewrite Eb in *. eapply weaken_s; [apply Is; lia|lia]. }
        destruct HM as (f & x & E & L). exists f, x. split; [exact E|lia]. }
      destruct HM as (f2 & x & E2 & W2). exists (S (Nat.max f1 f2)), x. rewrite simp_S, Ek, T1, T0, Ep.
      rewrite (simp_mono f1 _ _ _ m (Nat.le_max_l _ _) E1). cbn [bind]. rewrite (mul_mono f2 _ _ _ x (Nat.le_max_r _ _) E2). split; [reflexivity|lia]. }
    assert (Hm : forall A B, w A + w B <= W -> Mul A B (w A + w B)).
    { intros A B HW. apply Core; [exact HW| |].
      - intros a Ea. rewrite (w_const A a Ea) in *. now apply Hs.
      - intros b _ Eb. rewrite (w_const B b Eb) in *. eapply weaken_s; [apply Hs; lia|lia]. }
    assert (Hd : forall n B A, w B <= n -> w A + w B <= W -> Div A B (w A + w B + 1)).
    { induction n as [|n IHn]; intros B A Hn HW; [pose proof (w_pos B); lia|].
      destruct (const_test V isAbsZero A) eqn:TA; [exists 1, (Const V (Some v0)); rewrite div_S, TA; split; [reflexivity|cbn [w]; lia]|].
      assert (Go : forall f x, (match as_const V B, as_product V B, as_divide V B with
             | Some b, _, _ => if otest V isOne b then Ok A else e_mul f A (Const V (oinv b))
             | None, Some (l, r), _ =>
                 match as_const V l, as_const V r with
                 | Some k, _ => bind (e_mul f (Const V (oinv k)) A) (fun x => e_div f x r)
                 | None, Some k => bind (e_mul f (Const V (oinv k)) A) (fun x => e_div f x l)
                 | None, None => Ok (Divide V A B)
                 end
             | None, None, Some (l, r) => bind (e_mul f A r) (fun x => e_div f x l)
             | None, None, None => Ok (Divide V A B)
             end) = Ok x -> w x <= w A + w B + 1 -> Div A B (w A + w B + 1)).
      { intros f x E L. exists (S f), x. rewrite div_S, TA. auto. }
      destruct (as_const V B) as [b|] eqn:Eb.
      { pose proof (w_const B b Eb). destruct (otest V isOne b) eqn:T1.
        - apply (Go 0 A); [reflexivity|lia].
        - destruct (Hm A (Const V (oinv b))) as (f & x & E & L); [cbn [w]; lia|]. cbn [w] in L. apply (Go f x E). lia. }
      destruct (as_product V B) as [[l r]|] eqn:Ep.
      { pose proof (as_product_Some _ _ _ _ Ep) as ->. cbn [w] in *. pose proof (w_pos l). pose proof (w_pos r). destruct (as_const V l) as [k|] eqn:El.
        - pose proof (w_const l k El). destruct (mul_then_div (Const V (oinv k)) A r (1 + w A) (w A + (w l + w r + cst r) + 1)) as (f & y & E & L).
          + apply Hm. cbn [w]. lia.
          + intros x Hx. eapply weaken_d; [apply IHn; lia|lia].
          + exact (Go f y E L).
        - destruct (as_const V r) as [k|] eqn:Er.
          + pose proof (w_const r k Er). destruct (mul_then_div (Const V (oinv k)) A l (1 + w A) (w A + (w l + w r + cst r) + 1)) as (f & y & E & L).
            * apply Hm. cbn [w]. lia.
            * intros x Hx. unfold cst in *. rewrite Er in *. eapply weaken_d; [apply IHn; lia|lia].
            * exact (Go f y E L).
          + apply (Go 0 (Divide V A (Product V l r)) eq_refl). cbn [w]. lia. }
      destruct (as_divide V B) as [[l r]|] eqn:Ed.
      { pose proof (as_divide_Some _ _ _ _ Ed) as ->. cbn [w] in *. pose proof (w_pos l). pose proof (w_pos r).
        destruct (mul_then_div A r l (w A + w r) (w A + (w l + w r + 1) + 1)) as (f & y & E & L).
        - apply Im. lia.
        - intros x Hx. eapply weaken_d; [apply Id; lia|lia].
        - exact (Go f y E L). }
      apply (Go 0 (Divide V A B) eq_refl). cbn [w]. lia. }
    split; [exact Hs|]. split; [exact Hm|]. intros B A H. now apply (Hd (w B)).
  Qed.

  Lemma mul_returns A B : exists f0 x, forall f, f0 <= f -> e_mul f A B = Ok x.
  Proof. destruct (proj1 (proj2 (terminates _)) A B (le_n _)) as (f & x & E & _). exists f, x. intros f' L. now apply (mul_mono f). Qed.
  Lemma div_returns A B : exists f0 x, forall f, f0 <= f -> e_div f A B = Ok x.
  Proof. destruct (proj2 (proj2 (terminates _)) B A (le_n _)) as (f & x & E & _). exists f, x. intros f' L. now apply (div_mono f). Qed.

  Lemma sub_returns A B : exists f0 x, (forall f, f0 <= f -> e_sub f A B = Ok x) /\ (const_test V isZero A = false -> x = A \/ (exists c, x = Const V c) \/ x = Sub V A B).
  Proof.
    unfold Model.e_sub. destruct (const_test V isZero A) eqn:T1.
    { destruct (mul_returns (Const V (Some (opp v1))) B) as (f & x & E). exists f, x. split; [exact E|discriminate]. }
    destruct (const_test V isZero B); [exists 0, A; auto|].
    destruct (as_const V A) as [a|]; [|exists 0, (Sub V A B); auto]. destruct (as_const V B) as [b|]; [|exists 0, (Sub V A B); auto].
    exists 0, (Const V (lift2 sub a b)). split; [reflexivity|]. intros _. right. left. eauto.
  Qed.

  Fixpoint ws (e : expr) : nat := match e with Sum _ l r => ws l + ws r + cst r | _ => 1 end.
  Lemma ws_pos e : 1 <= ws e. Proof. induction e; simpl; lia. Qed.
  Lemma ws_const e c : as_const V e = Some c -> ws e = 1. Proof. destruct e; try discriminate. reflexivity. Qed.

  Lemma spa_returns l r e : as_const V e = None -> exists f0 x, (forall f, f0 <= f -> spa f l r e = Ok x) /\ ws x <= ws e + 1.
  Proof.
    intro He. unfold Model.simplify_product_addition.
    assert (P : exists f0 x, (forall f : nat, f0 <= f -> Ok (Sum V e (Product V l r)) = Ok x) /\ ws x <= ws e + 1).
    { exists 0, (Sum V e (Product V l r)). split; [auto|]. cbn [ws cst as_const]. unfold cst. simpl. lia. }
    destruct (as_const V l) as [k|]; [|exact P]. destruct (otest V isNeg k); [|exact P].
    destruct (mul_returns (Const V (lift2 mul (Some (opp v1)) k)) r) as (f1 & m & E1).
    destruct (sub_returns e m) as (f2 & x & E2 & S2). exists (Nat.max f1 f2), x. split.
    - intros f L. rewrite E1 by lia. cbn [bind]. apply E2. lia.
    - assert (Z : const_test V isZero e = false) by (unfold const_test; now rewrite He).
      destruct (S2 Z) as [-> | [[c ->] | ->]]; cbn [ws]; lia.
  Qed.

  Lemma add_mono_step f :
    (forall c e x, sca f c e = Ok x -> sca (S f) c e = Ok x) /\ (forall A B x, e_add f A B = Ok x -> e_add (S f) A B = Ok x).
  Proof.
    assert (Hspa : forall g l r e x, spa g l r e = Ok x -> spa (S g) l r e = Ok x).
    { intros g l r e x. unfold Model.simplify_product_addition. destruct (as_const V l) as [k|]; [|auto]. destruct (otest V isNeg k); [|auto].
      apply bind_mono; [intros; now apply mono_step|]. intros m. unfold Model.e_sub. destruct (const_test V isZero e); [|auto].
      unfold Model.e_neg. intro H. now apply mono_step. }
    induction f as [|f (Is & Ia)]; [split; discriminate|]. split.
    - intros c e x H. rewrite sca_S in H |- *. destruct (otest V isZero c); [exact H|]. destruct (as_const V e); [exact H|].
      destruct (as_sum V e) as [[l r]|]; [|exact H]. revert H. apply bind_mono; intros; auto.
    - intros A B x H. rewrite add_S in H |- *. destruct (as_const V A); [auto|]. destruct (as_const V B); [auto|].
      destruct (as_product V A) as [[l r]|]; [now apply Hspa|]. destruct (as_product V B) as [[l r]|]; [now apply Hspa|exact H].
  Qed.
  Lemma sca_mono f f' c e x : f <= f' -> sca f c e = Ok x -> sca f' c e = Ok x.
  Proof. intros L H. induction L; [exact H|]. now apply add_mono_step. Qed.
  Lemma add_mono f f' A B x : f <= f' -> e_add f A B = Ok x -> e_add f' A B = Ok x.
  Proof. intros L H. induction L; [exact H|]. now apply add_mono_step. Qed.

  Lemma add_terminates W :
    (forall c e, 1 + ws e <= W -> exists f x, sca f c e = Ok x /\ ws x <= 1 + ws e) /\
    (forall A B, ws A + ws B <= W -> exists f x, e_add f A B = Ok x /\ ws x <= ws A + ws B).
  Proof.
    induction W as [W IH] using lt_wf_ind.
    assert (Is : forall c e, 1 + ws e < W -> exists f x, sca f c e = Ok x /\ ws x <= 1 + ws e) by (intros c e H; exact (proj1 (IH _ H) c e (le_n _))).
    assert (Core : forall A B, (forall a, as_const V A = Some a -> exists f x, sca f a B = Ok x /\ ws x <= ws A + ws B) ->
       (forall b, as_const V A = None -> as_const V B = Some b -> exists f x, sca f b A = Ok x /\ ws x <= ws A + ws B) ->
       exists f x, e_add f A B = Ok x /\ ws x <= ws A + ws B).
    { intros A B CA CB. pose proof (ws_pos A). pose proof (ws_pos B). destruct (as_const V A) as [a|] eqn:Ea.
      { destruct (CA a eq_refl) as (f & x & E & L). exists (S f), x. rewrite add_S, Ea. auto. }
      destruct (as_const V B) as [b|] eqn:Eb.
      { destruct (CB b eq_refl eq_refl) as (f & x & E & L). exists (S f), x. rewrite add_S, Ea, Eb. auto. }
      destruct (as_product V A) as [[l r]|] eqn:EA.
      { destruct (spa_returns l r B Eb) as (f & x & E & L). exists (S f), x. rewrite add_S, Ea, Eb, EA. rewrite E by lia. split; [reflexivity|lia]. }
      destruct (as_product V B) as [[l r]|] eqn:EB.
      { destruct (spa_returns l r A Ea) as (f & x & E & L). exists (S f), x. rewrite add_S, Ea, Eb, EA, EB. rewrite E by lia. split; [reflexivity|lia]. }
      exists 1, (Sum V A B). rewrite add_S, Ea, Eb, EA, EB. split; [reflexivity|]. cbn [ws]. unfold cst. rewrite Eb. lia. }
    assert (Hs : forall c e, 1 + ws e <= W -> exists f x, sca f c e = Ok x /\ ws x <= 1 + ws e).
    { intros c e HW. destruct (otest V isZero c) eqn:T; [exists 1, e; rewrite sca_S, T; split; [reflexivity|lia]|].
      destruct (as_const V e) as [k|] eqn:Ek; [exists 1, (Const V (lift2 add c k)); rewrite sca_S, T, Ek; split; [reflexivity|cbn [ws]; lia]|].
      destruct (as_sum V e) as [[l r]|] eqn:Es.
      2:{ exists 1, (Sum V (Const V c) e). rewrite sca_S, T, Ek, Es. split; [reflexivity|]. cbn [ws]. unfold cst. rewrite Ek. lia. }
      pose proof (as_sum_Some _ _ _ _ Es) as ->. cbn [ws] in *. pose proof (ws_pos l). pose proof (ws_pos r).
      destruct (Is c l) as (f1 & m & E1 & W1); [lia|].
      destruct (Core m r) as (f2 & x & E2 & W2).
      - intros a Ea. apply (ws_const m) in Ea. destruct (Is a r) as (f & x & E & L); [lia|]. exists f, x. split; [exact E|lia].
      - intros b _ Eb. pose proof (ws_const r b Eb). unfold cst in *. rewrite Eb in *. destruct (Is b m) as (f & x & E & L); [lia|]. exists f, x. split; [exact E|lia].
      - exists (S (Nat.max f1 f2)), x. rewrite sca_S, T, Ek, Es. rewrite (sca_mono f1 _ _ _ m (Nat.le_max_l _ _) E1). cbn [bind].
        rewrite (add_mono f2 _ _ _ x (Nat.le_max_r _ _) E2). split; [reflexivity|lia]. }
    split; [exact Hs|]. intros A B HW. apply Core.
    - intros a Ea. rewrite (ws_const A a Ea) in *. now apply Hs.
    - intros b _ Eb. rewrite (ws_const B b Eb) in *. destruct (Hs b A) as (f & x & E & L); [lia|]. exists f, x. split; [exact E|lia].
  Qed.
  Lemma add_returns A B : exists f0 x, forall f, f0 <= f -> e_add f A B = Ok x.
  Proof. destruct (proj2 (add_terminates _) A B (le_n _)) as (f & x & E & _). exists f, x. intros f' L. now apply (add_mono f). Qed.
End Term.
