From Verif.Common Require Import Prelude.
From Coq Require Import Reals Lra FunctionalExtensionality.
From Coquelicot Require Import Hierarchy Complex.
From Verif.Vertex Require Import Model Spec Algebra Maps PropsBoson.
From Verif.Parity Require Import Model Spec.
Local Open Scope C_scope.

Lemma flip_app v : flip v = app reflection v.
Proof. apply vec_ext. intros []; unfold flip, app, reflection; ring. Qed.
Lemma seen_te T : (fun i j => flip (fun k => flip (T k) j) i) = tapp reflection T.
Proof. apply ten_ext. intros i j. unfold tapp. rewrite flip_app. f_equal. apply vec_ext. intro k. now rewrite flip_app. Qed.
Definition Z2C (s : Z) : C := RtoC (IZR s).
Lemma Z2C_mul a b : Z2C (a * b) = Z2C a * Z2C b. Proof. unfold Z2C. now rewrite mult_IZR, RtoC_mult. Qed.
Lemma Z2C_1 : Z2C 1 = 1. Proof. reflexivity. Qed.
Lemma Z2C_m1 : Z2C (-1) = - (1). Proof. unfold Z2C. rewrite <- RtoC_opp. f_equal. Qed.
Lemma seen_sc s x : seen s (Sc x) = Sc (Z2C s * x). Proof. reflexivity. Qed.
Lemma seen_ve s v : seen s (Ve v) = Ve (vsc (Z2C s) (app reflection v)).
Proof. cbn. f_equal. apply vec_ext. intro. unfold vsc. now rewrite flip_app. Qed.
Lemma seen_ten s T : seen s (Te T) = Te (tsc (Z2C s) (tapp reflection T)).
Proof. unfold seen. f_equal. rewrite <- seen_te. reflexivity. Qed.

(** Every vertex is linear in both tensors. *)
Ltac lin := unfold S_SS_S, S_VV_S, S_VV_S1, S_VV_D, S_VV_P, S_VS_P, V_SS_P, V_VS_P, V_VS_S, V_VS_D, V_VV_P, V_VV_P1, V_VV_P2, V_VV_S,
  T_VS_D, T_TS_S, T_VS_P, T_SS_D, S_TV_P, S_TS_D, S_TV_D, S_TT_S, V_TS_P, V_TS_D, dot, dot2, tv, vt, tt, sum4, vsc, tsc.
Lemma eps3_sc1 x a b c : eps3 (vsc x a) b c = vsc x (eps3 a b c). Proof. apply vec_ext. intro. unfold eps3, vsc, sum4. ring. Qed.
Lemma eps3_sc2 x a b c : eps3 a (vsc x b) c = vsc x (eps3 a b c). Proof. apply vec_ext. intro. unfold eps3, vsc, sum4. ring. Qed.
Lemma eps3_sc3 x a b c : eps3 a b (vsc x c) = vsc x (eps3 a b c). Proof. apply vec_ext. intro. unfold eps3, vsc, sum4. ring. Qed.
Lemma eps3_last_sc3 x a b c : eps3_last a b (vsc x c) = vsc x (eps3_last a b c). Proof. apply vec_ext. intro. unfold eps3_last, vsc, sum4. ring. Qed.
Lemma vt_sc x v T : vt (vsc x v) T = vsc x (vt v T). Proof. apply vec_ext. intro. unfold vt, vsc, sum4. ring. Qed.
Lemma tv_sc x v T : tv T (vsc x v) = vsc x (tv T v). Proof. apply vec_ext. intro. unfold tv, vsc, sum4. ring. Qed.
Lemma tv_tsc x v T : tv (tsc x T) v = vsc x (tv T v). Proof. apply vec_ext. intro. unfold tv, vsc, tsc, sum4. ring. Qed.
Lemma vt_tsc x v T : vt v (tsc x T) = vsc x (vt v T). Proof. apply vec_ext. intro. unfold vt, vsc, tsc, sum4. ring. Qed.
Lemma tt_tsc_r x A B : tt A (tsc x B) = tsc x (tt A B). Proof. apply ten_ext. intros. unfold tt, tsc, sum4. ring. Qed.
Lemma tt_tsc_l x A B : tt (tsc x A) B = tsc x (tt A B). Proof. apply ten_ext. intros. unfold tt, tsc, sum4. ring. Qed.
Lemma eps2_sc x a b : eps2_first a (vsc x b) = tsc x (eps2_first a b). Proof. apply ten_ext. intros. unfold eps2_first, vsc, tsc, sum4. ring. Qed.
Lemma dot_l x a b : dot (vsc x a) b = x * dot a b. Proof. unfold dot, vsc, sum4. ring. Qed.
Lemma dot_r x a b : dot a (vsc x b) = x * dot a b. Proof. unfold dot, vsc, sum4. ring. Qed.
Lemma dot2_l x a b : dot2 (tsc x a) b = x * dot2 a b. Proof. unfold dot2, tsc, sum4. ring. Qed.
Lemma dot2_r x a b : dot2 a (tsc x b) = x * dot2 a b. Proof. unfold dot2, tsc, sum4. ring. Qed.
Lemma vsc_at x v i : vsc x v i = x * v i. Proof. reflexivity. Qed.
Lemma tsc_at x T i j : tsc x T i j = x * T i j. Proof. reflexivity. Qed.

Definition linear (f : vertex) : Prop := forall a b, match f with
  | SS_S f => forall P Q V1 V2, f P Q (a * V1) (b * V2) = a * b * f P Q V1 V2
  | SS_V f => forall P Q V1 V2, f P Q (a * V1) (b * V2) = vsc (a * b) (f P Q V1 V2)
  | SS_T f => forall P Q V1 V2, f P Q (a * V1) (b * V2) = tsc (a * b) (f P Q V1 V2)
  | VS_S f => forall P Q V1 V2, f P Q (vsc a V1) (b * V2) = a * b * f P Q V1 V2
  | VS_V f => forall P Q V1 V2, f P Q (vsc a V1) (b * V2) = vsc (a * b) (f P Q V1 V2)
  | VS_T f => forall P Q V1 V2, f P Q (vsc a V1) (b * V2) = tsc (a * b) (f P Q V1 V2)
  | VV_S f => forall P Q V1 V2, f P Q (vsc a V1) (vsc b V2) = a * b * f P Q V1 V2
  | VV_V f => forall P Q V1 V2, f P Q (vsc a V1) (vsc b V2) = vsc (a * b) (f P Q V1 V2)
  | TS_S f => forall P Q V1 V2, f P Q (tsc a V1) (b * V2) = a * b * f P Q V1 V2
  | TS_V f => forall P Q V1 V2, f P Q (tsc a V1) (b * V2) = vsc (a * b) (f P Q V1 V2)
  | TS_T f => forall P Q V1 V2, f P Q (tsc a V1) (b * V2) = tsc (a * b) (f P Q V1 V2)
  | TV_S f => forall P Q V1 V2, f P Q (tsc a V1) (vsc b V2) = a * b * f P Q V1 V2
  | TT_S f => forall P Q V1 V2, f P Q (tsc a V1) (tsc b V2) = a * b * f P Q V1 V2
  end.
(** What the frame turned by the reflection does to a vertex. *)
Definition turns (s : C) (f : vertex) : Prop :=
  let X := app reflection in let X2 := tapp reflection in match f with
  | SS_S f => forall P Q V1 V2, f (X P) (X Q) V1 V2 = s * f P Q V1 V2
  | SS_V f => forall P Q V1 V2, f (X P) (X Q) V1 V2 = vsc s (X (f P Q V1 V2))
  | SS_T f => forall P Q V1 V2, f (X P) (X Q) V1 V2 = tsc s (X2 (f P Q V1 V2))
  | VS_S f => forall P Q V1 V2, f (X P) (X Q) (X V1) V2 = s * f P Q V1 V2
  | VS_V f => forall P Q V1 V2, f (X P) (X Q) (X V1) V2 = vsc s (X (f P Q V1 V2))
  | VS_T f => forall P Q V1 V2, f (X P) (X Q) (X V1) V2 = tsc s (X2 (f P Q V1 V2))
  | VV_S f => forall P Q V1 V2, f (X P) (X Q) (X V1) (X V2) = s * f P Q V1 V2
  | VV_V f => forall P Q V1 V2, f (X P) (X Q) (X V1) (X V2) = vsc s (X (f P Q V1 V2))
  | TS_S f => forall P Q V1 V2, f (X P) (X Q) (X2 V1) V2 = s * f P Q V1 V2
  | TS_V f => forall P Q V1 V2, f (X P) (X Q) (X2 V1) V2 = vsc s (X (f P Q V1 V2))
  | TS_T f => forall P Q V1 V2, f (X P) (X Q) (X2 V1) V2 = tsc s (X2 (f P Q V1 V2))
  | TV_S f => forall P Q V1 V2, f (X P) (X Q) (X2 V1) (X V2) = s * f P Q V1 V2
  | TT_S f => forall P Q V1 V2, f (X P) (X Q) (X2 V1) (X2 V2) = s * f P Q V1 V2
  end.
Definition sign_of (J s1 s2 L : nat) : Z :=
  let f := Z.quot (Z.of_nat J - (2 * Z.of_nat L + Z.of_nat s1 + Z.of_nat s2)) 2 in if Z.eqb (Z.rem f 2) 0 then 1%Z else (-1)%Z.

(** The cases of the table. *)
Ltac cases H :=
  repeat match type of H with
  | match ?n with O => _ | S _ => _ end = Some _ => destruct n; try discriminate H
  | Some _ = Some _ => injection H as <-
  end.
Lemma named_linear J s1 s2 L c f : named J s1 s2 L c = Some f -> (J, s1, L) <> (2, 4, 2)%nat -> linear f.
Proof.
  unfold named. intros H NE. cases H; try (now destruct NE); clear NE; intros a b ?P ?Q V1 V2; try apply vec_ext; try apply ten_ext; intros.
  all: unfold V_VV_P1, V_VV_S, T_VS_D, S_TV_D, S_TT_S; rewrite ?eps3_sc2, ?eps3_sc3, ?eps2_sc, ?vt_sc, ?tt_tsc_l, ?tt_tsc_r, ?eps3_last_sc3, ?dot2_l, ?dot2_r, ?vsc_at.
  all: try (lin; ring).
  all: try (unfold T_VS_P, T_TS_S; rewrite ?tt_tsc_r, ?tt_tsc_l, ?tv_sc, ?dot_r, ?dot2_l, ?tsc_at, ?vsc_at; unfold Cdiv; try ring).
Qed.
Lemma vsc_1 v : vsc 1 v = v. Proof. apply vec_ext. intro. unfold vsc. ring. Qed.
Lemma tsc_1 v : tsc 1 v = v. Proof. apply ten_ext. intros. unfold tsc. ring. Qed.
Lemma named_turns J s1 s2 L c f : named J s1 s2 L c = Some f -> turns (Z2C (sign_of J s1 s2 L)) f.
Proof.
  unfold named. intro H.
  cases H; (match goal with |- turns (Z2C ?z) _ => let z' := eval vm_compute in z in change z with z' end); rewrite ?Z2C_1, ?Z2C_m1; cbv zeta beta iota delta [turns];
  intros p q V1 V2; destruct (C80_covariant reflection reflection (-(1)) reflection_lorentz p q) as (A1 & A2 & A3 & A4 & A5 & A6 & _); cbv zeta in *;
  first [destruct (A1 V1 V2) as (? & ?) | destruct (A2 V1 V2) as (? & ? & ? & ? & ? & ?) | destruct (A3 V1 V2) as (? & ? & ? & ? & ? & ? & ? & ?)
        | destruct (A4 V1 V2) as (? & ? & ? & ?) | destruct (A5 V1 V2) as (? & ?) | pose proof (A6 V1 V2)];
  try (match goal with H : ?l = _ |- ?l = _ => rewrite H end); try replace (- (1) * - (1)) with (RtoC 1) by ring; rewrite ?vsc_1, ?tsc_1; try reflexivity; try ring.
  unfold S_SS_S; ring.
Qed.

Lemma call_turns J s1 s2 L c f p q V1 V2 a b r : named J s1 s2 L c = Some f -> call f p q V1 V2 = Ok r -> (J = 2%nat -> s1 = 4%nat -> L = 2%nat -> b = 1%Z) ->
  call f (flip p) (flip q) (seen a V1) (seen b V2) = Ok (seen (sign_of J s1 s2 L * a * b) r).
Proof.
  intros N H B. rewrite !flip_app. pose proof (named_turns _ _ _ _ _ _ N) as HT.
  assert (D : (J, s1, L) <> (2, 4, 2)%nat \/ (J, s1, L) = (2, 4, 2)%nat).
  { destruct (Nat.eq_dec J 2) as [->|]; [|left; congruence]. destruct (Nat.eq_dec s1 4) as [->|]; [|left; congruence]. destruct (Nat.eq_dec L 2) as [->|]; [now right|left; congruence]. }
  destruct D as [D|D].
  - pose proof (named_linear _ _ _ _ _ _ N D (Z2C a) (Z2C b)) as HL. clear D B.
    set (s := sign_of J s1 s2 L) in *. clearbody s. clear N.
    destruct f, V1, V2; try discriminate H; injection H as <-; rewrite ?seen_sc, ?seen_ve, ?seen_ten; unfold call; do 2 f_equal;
    cbv zeta beta iota delta [turns] in HT; rewrite HL, HT, ?Z2C_mul; try apply vec_ext; try apply ten_ext; intros; unfold vsc, tsc; ring.
  - injection D as -> -> ->. rewrite (B eq_refl eq_refl eq_refl). unfold named in N. cases N.
    destruct V1 as [| |V1], V2 as [V2| |]; try discriminate H. injection H as <-. rewrite seen_ten, seen_sc, seen_ve. unfold call. do 2 f_equal.
    cbv zeta beta iota delta [turns] in HT. specialize (HT p q V1 (Z2C 1 * V2)).
    transitivity (vsc (Z2C a) (V_TS_D (app reflection p) (app reflection q) (tapp reflection V1) (Z2C 1 * V2))).
    + unfold V_TS_D. now rewrite tt_tsc_r, tv_tsc.
    + rewrite HT. change (V_TS_D p q V1 (Z2C 1 * V2)) with (V_TS_D p q V1 V2). rewrite !Z2C_mul. apply vec_ext. intro. unfold vsc. rewrite Z2C_1. ring.
Qed.
Lemma flip_plus a b : flip (plus a b) = plus (flip a) (flip b). Proof. apply vec_ext. intros []; unfold flip, plus; ring. Qed.
Lemma flip_minus a b : flip (minus a b) = minus (flip a) (flip b). Proof. apply vec_ext. intros []; unfold flip, minus; ring. Qed.
Lemma flip_nil : flip nil4 = nil4. Proof. apply vec_ext. intros []; unfold flip, nil4; ring. Qed.
Lemma P_inverted d e : P d (inverted e) = flip (P d e).
Proof. induction d; cbn [P]; rewrite ?flip_plus, ?flip_nil; try reflexivity; congruence. Qed.


Definition rank (v : value) : nat := match v with Sc _ => 0 | Ve _ => 1 | Te _ => 2 end.
Lemma call_rank f p q V1 V2 r p' q' V1' V2' : call f p q V1 V2 = Ok r -> rank V1' = rank V1 -> rank V2' = rank V2 -> exists r', call f p' q' V1' V2' = Ok r' /\ rank r' = rank r.
Proof. intros H R1 R2. destruct f, V1, V2; try discriminate H; injection H as <-; destruct V1', V2'; try discriminate; cbn; eauto. Qed.
(** Whether there is a tensor, and of which rank, does not depend on the event. *)
Lemma tensor_rank d e e' v : spinTensor d e = Ok v -> exists v', spinTensor d e' = Ok v' /\ rank v' = rank v.
Proof.
  revert v. induction d as [J k|J d IH|J L c a IHa b IHb|J a IHa b IHb c IHc]; intros v H; cbn [spinTensor] in *.
  - destruct J; [|discriminate]. eauto.
  - auto.
  - destruct (spinTensor a e) as [va| | |] eqn:Ea; try discriminate. destruct (spinTensor b e) as [vb| | |] eqn:Eb; try discriminate.
    destruct (IHa _ eq_refl) as (va' & -> & Ra). destruct (IHb _ eq_refl) as (vb' & -> & Rb). cbn [bind] in *. destruct (named _ _ _ _ _); [|discriminate].
    exact (call_rank _ _ _ _ _ _ _ _ _ _ H Ra Rb).
  - destruct (spinTensor a e) as [va| | |] eqn:Ea; try discriminate. destruct (spinTensor b e) as [vb| | |] eqn:Eb; try discriminate.
    destruct (spinTensor c e) as [vc| | |] eqn:Ec; try discriminate.
    destruct (IHa _ eq_refl) as (va' & -> & _). destruct (IHb _ eq_refl) as (vb' & -> & _). destruct (IHc _ eq_refl) as (vc' & -> & _). cbn [bind] in *.
    set (k := Nat.eqb (J / 2) 1) in *. clearbody k. destruct k; injection H as <-; eauto.
Qed.

Lemma inversion d e : regular d -> forall v s, spinTensor d e = Ok v -> finalStateParity d = Ok s -> spinTensor d (inverted e) = Ok (seen s v).
Proof.
  induction d as [J k|J d IH|J L c a IHa b IHb|J a IHa b IHb c IHc]; intros G v s H F.
  - cbn in *. destruct J; [|discriminate]. injection H as <-. injection F as <-. unfold seen. do 2 f_equal. ring.
  - cbn in *. eauto.
  - cbn [spinTensor finalStateParity regular] in *. destruct G as (G0 & Ga & Gb).
    destruct (spinTensor a e) as [va| | |] eqn:Ea; try discriminate. destruct (spinTensor b e) as [vb| | |] eqn:Eb; try discriminate.
    destruct (finalStateParity a) as [x| | |] eqn:Fa; try discriminate. destruct (finalStateParity b) as [y| | |] eqn:Fb; try discriminate. cbn [bind] in *.
    rewrite (IHa Ga _ _ eq_refl eq_refl), (IHb Gb _ _ eq_refl eq_refl). cbn [bind]. destruct (named _ _ _ _ _) as [f|] eqn:N; [|discriminate].
    rewrite !P_inverted, <- flip_minus. injection F as <-. apply (call_turns _ _ _ _ _ _ _ _ _ _ x y _ N H).
    intros E1 E2 E3. specialize (G0 E1 E2 E3). now injection G0.
  - cbn [spinTensor finalStateParity regular] in *. destruct (spinTensor a e) as [va| | |] eqn:Ea; try discriminate. destruct (spinTensor b e) as [vb| | |] eqn:Eb; try discriminate.
    destruct (spinTensor c e) as [vc| | |] eqn:Ec; try discriminate. cbn [bind] in *.
    destruct (tensor_rank _ _ (inverted e) _ Ea) as (? & -> & _). destruct (tensor_rank _ _ (inverted e) _ Eb) as (? & -> & _).
    destruct (tensor_rank _ _ (inverted e) _ Ec) as (? & -> & _). cbn [bind]. injection H as <-.
    destruct J as [|[|[|[|[|J]]]]]; try discriminate F; try lia; injection F as <-.
    + change (Nat.eqb _ _) with false. cbv iota. unfold seen. do 2 f_equal. ring.
    + change (Nat.eqb _ _) with true. cbv iota. rewrite !P_inverted, seen_ve, !flip_app. do 2 f_equal. rewrite Z2C_m1.
      destruct (C80_covariant reflection reflection (-(1)) reflection_lorentz (P a e) (P a e)) as (_ & _ & _ & _ & _ & _ & A). apply A.
    + change (Nat.eqb _ _) with false. cbv iota. unfold seen. do 2 f_equal. ring.
Qed.
Lemma parity_sign d s : finalStateParity d = Ok s -> (s = 1 \/ s = -1)%Z.
Proof.
  revert s. induction d as [J k|J d IH|J L c a IHa b IHb|J a IHa b IHb c IHc]; intros s F; cbn [finalStateParity] in F.
  - injection F as <-. now left.
  - auto.
  - destruct (finalStateParity a) as [x| | |]; try discriminate. destruct (finalStateParity b) as [y| | |]; try discriminate. injection F as <-.
    destruct (IHa _ eq_refl) as [-> | ->], (IHb _ eq_refl) as [-> | ->]; destruct (Z.eqb _ _); cbn; auto.
  - destruct (Nat.even J); [|discriminate]. injection F as <-. destruct (Nat.even _); auto.
Qed.
Lemma spinless_scalar d e v : spinless d -> spinTensor d e = Ok v -> exists x, v = Sc x.
Proof.
  revert v. induction d as [J k|J d IH|J L c a IHa b IHb|J a IHa b IHb c IHc]; intros v HS H; cbn [spinTensor spinless] in *.
  - subst J. injection H as <-. eauto.
  - auto.
  - subst J. destruct (spinTensor a e) as [va| | |]; try discriminate. destruct (spinTensor b e) as [vb| | |]; try discriminate. cbn [bind] in H.
    destruct (named _ _ _ _ _) as [f|] eqn:N; [|discriminate]. unfold named in N. cases N; destruct va, vb; try discriminate H; injection H as <-; eauto.
  - subst J. destruct (spinTensor a e) as [va| | |]; try discriminate. destruct (spinTensor b e) as [vb| | |]; try discriminate. destruct (spinTensor c e) as [vc| | |]; try discriminate.
    injection H as <-. cbn. eauto.
Qed.
Lemma total_inverted t s : plain t -> finalStateParity (tree t) = Ok s -> forall os e x, total t os e = Ok x -> total t os (inverted e) = Ok (Z2C s * x).
Proof.
  intros (HS & HR & HI & HB & HC) F. induction os as [|[c o] os IH]; intros e x H; cbn [total] in *.
  - injection H as <-. f_equal. ring.
  - unfold spinFactor in *. rewrite HB, HC in *.
    destruct (spinTensor (tree t) (fun i => e (o i))) as [v| | |] eqn:E; try discriminate. cbn [bind] in H.
    change (fun i => inverted e (o i)) with (inverted (fun i => e (o i))). rewrite (inversion _ _ HR _ _ E F). cbn [bind].
    destruct (spinless_scalar _ _ _ HS E) as [z ->]. rewrite seen_sc. destruct (total t os e) as [y| | |] eqn:Ey; try discriminate. cbn [bind] in H.
    rewrite (IH _ _ Ey). cbn [bind]. injection H as <-. f_equal. rewrite HI. ring.
Qed.
Lemma expression_inverted t s e a : plain t -> finalStateParity (tree t) = Ok s -> expression t e = Ok a -> expression t (inverted e) = Ok (Z2C s * a).
Proof.
  intros HP F H. unfold expression in *. destruct (total t (orderings t) e) as [x| | |] eqn:E; try discriminate. rewrite (total_inverted _ _ HP F _ _ _ E). cbn [bind] in *.
  injection H as <-. destruct HP as (_ & _ & _ & _ & ->). f_equal. unfold Cdiv. ring.
Qed.
Lemma AMP_plus ts e a : AMP ts e 1 = Ok a -> amplitude ts e = Ok a.
Proof.
  revert a. induction ts as [|t r IH]; intros a H; cbn [AMP amplitude] in *; [exact H|].
  destruct (finalStateParity (tree t)) as [p| | |]; try discriminate. cbn [bind] in H. destruct (expression t e) as [x| | |]; try discriminate. cbn [bind] in *.
  destruct (AMP r e 1) as [y| | |]; try discriminate. rewrite (IH _ eq_refl). cbn [bind] in *. injection H as <-. f_equal. destruct (Z.eqb p 1); unfold Z2C; ring.
Qed.
Lemma AMP_minus ts e a : Forall plain ts -> AMP ts e (-1) = Ok a -> AMP ts (inverted e) 1 = Ok a.
Proof.
  intro HF. revert a. induction HF as [|t r HP _ IH]; intros a H; cbn [AMP] in *; [exact H|].
  destruct (finalStateParity (tree t)) as [p| | |] eqn:F; try discriminate. cbn [bind] in *. destruct (expression t e) as [x| | |] eqn:E; try discriminate. cbn [bind] in *.
  destruct (AMP r e (-1)) as [y| | |]; try discriminate. rewrite (expression_inverted _ _ _ _ HP F E), (IH _ eq_refl). cbn [bind] in *. injection H as <-. f_equal.
  destruct (parity_sign _ _ F) as [-> | ->]; cbn [Z.eqb]; fold (Z2C (-1)) (Z2C 1); rewrite ?Z2C_1, ?Z2C_m1; cbn; ring.
Qed.
