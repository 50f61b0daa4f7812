From Verif.Common Require Import Prelude.
From Coq Require Import Reals ZArith Lra Field.
From Coquelicot Require Import Hierarchy Complex.
From Verif.Vertex Require Import Model Spec Algebra.
From Verif.External Require Import Model Spec Proofs Weyl.
Local Open Scope R_scope.

Definition ds id m p s := match dirac_spinor id m p s with Some v => v | None => zero end.
Definition ws id m p s := match weyl_spinor id m p s with Some v => v | None => zero end.
Lemma norm_sq (e m : R) : 0 < m -> 0 < e -> sqrt ((e + m) / (2 * m)) * sqrt ((e + m) / (2 * m)) = e * / (2 * m) + m * / (2 * m).
Proof. intros Hm He. rewrite sqrt_sqrt; [field; lra|]. apply Rlt_le, Rdiv_lt_0_compat; lra. Qed.
Lemma slash_entry p a b : slash p a b = (Gamma I3 a b * p I3 - Gamma I0 a b * p I0 - Gamma I1 a b * p I1 - Gamma I2 a b * p I2)%C.
Proof. unfold slash, Gamma4Vec, sum4, sgn. ring. Qed.
Ltac gammas := unfold pairing, Bar, mv, vsc, sum4; rewrite ?slash_entry; unfold Gamma, square, P4, four, Identity; cbn [nth px py pz en].

Lemma dirac_spinors_ex p m id : on_shell p m -> id <> 0%Z -> spinor_states (Z.sgn id) p m (ds id m p).
Proof.
  intros (Hm & He & S) Hid. assert (Hs : (id >? 0)%Z = true /\ Z.sgn id = 1%Z \/ ((id >? 0)%Z = false /\ (id <? 0)%Z = true /\ Z.sgn id = (-1)%Z)).
  { destruct id; [congruence| |]; cbn; [left|right]; repeat split. }
  destruct p as [x y z e]. cbn in He, S.
  unfold spinor_states, ds, dirac_spinor, zz, zb, dirac. cbn [px py pz en].
  pose proof (norm_sq e m Hm He) as RN. unfold Rdiv in *. rewrite ?Rmult_1_l.
  assert (Rd : / (e + m) * e = 1 - / (e + m) * m) by (field; lra).
  assert (Rx : x * x = e * e - m * m - y * y - z * z) by lra.
  assert (Rh : (1 + 1) * / (2 * m) * m = 1) by (field; lra). pose proof ii as Hi.
  set (N := sqrt _) in *. set (d := / (e + m)) in *. set (h := / (2 * m)) in *. clearbody N d h. clear S.
  toC RN; toC Rd; toC Rx; toC Rh.
  destruct Hs as [(E1 & E3)|(E1 & E2 & E3)]; rewrite E3, E1; [|rewrite E2]; cbn [andb].
  - split; [|split].
    + intros s I. apply vec_ext. intro a. states; destruct a; cbn [Z.eqb Pos.eqb]; gammas; push; rewrite ?RtoC_m1; ring [Rd Rx Hi].
    + intros s t I J. states; unfold delta; cbn [Z.eqb Pos.eqb Z.opp];
       match goal with |- context[if ?d then _ else _] => destruct d; [|try congruence]; try congruence end; gammas; push; rewrite ?RtoC_m1; ring [RN Rd Rx Rh Hi].
    + intros [] []; cbn [Z.eqb Pos.eqb]; gammas; push; rewrite ?RtoC_m1; ring [RN Rd Rx Rh Hi].
  - split; [|split].
    + intros s I. apply vec_ext. intro a. states; destruct a; cbn [Z.eqb Pos.eqb]; gammas; push; rewrite ?RtoC_m1; ring [Rd Rx Hi].
    + intros s t I J. states; unfold delta; cbn [Z.eqb Pos.eqb Z.opp];
       match goal with |- context[if ?d then _ else _] => destruct d; [|try congruence]; try congruence end; gammas; push; rewrite ?RtoC_m1; ring [RN Rd Rx Rh Hi].
    + intros [] []; cbn [Z.eqb Pos.eqb]; gammas; push; rewrite ?RtoC_m1; ring [RN Rd Rx Rh Hi].
Qed.
Lemma boost_norm (e m : R) : 0 < m -> 0 < e -> sqrt ((e + m) / (2 * m)) = (e + m) * / sqrt (2 * m * (e + m)).
Proof.
  intros Hm He. assert (H : 0 < sqrt (2 * m * (e + m))) by (apply sqrt_lt_R0; nra).
  apply Rmult_eq_reg_r with (sqrt (2 * m * (e + m))); [|lra]. replace ((e + m) * / sqrt (2 * m * (e + m)) * sqrt (2 * m * (e + m))) with (e + m) by (field; lra).
  rewrite <- sqrt_mult_alt by (apply Rlt_le, Rdiv_lt_0_compat; lra).
  replace ((e + m) / (2 * m) * (2 * m * (e + m))) with (Rsqr (e + m)) by (unfold Rsqr; field; lra). apply sqrt_Rsqr. lra.
Qed.
Lemma ds_boost p m id s : on_shell p m -> id <> 0%Z -> In s (1 :: -1 :: nil)%Z -> forall a, ds id m p s a = boosted_spinor (Z.sgn id) p m (rest_spinor (Z.sgn id) s) a.
Proof.
  intros (Hm & He & S) Hid I. assert (Hs : (id >? 0)%Z = true /\ Z.sgn id = 1%Z \/ ((id >? 0)%Z = false /\ (id <? 0)%Z = true /\ Z.sgn id = (-1)%Z)).
  { destruct id; [congruence| |]; cbn; [left|right]; repeat split. }
  destruct p as [x y z e]. cbn in He, S. unfold ds, dirac_spinor, zz, zb, boosted_spinor, rest_spinor. cbn [px py pz en].
  rewrite (boost_norm e m Hm He). unfold Rdiv in *. rewrite ?Rmult_1_l.
  assert (Rd : / (e + m) * e = 1 - / (e + m) * m) by (field; lra).
  set (n := / sqrt _) in *. set (d := / (e + m)) in *. clearbody n d. toC Rd. pose proof ii as Hi.
  destruct Hs as [(E1 & E3)|(E1 & E2 & E3)]; rewrite E3, E1; [|rewrite E2]; cbn [andb]; states; cbn [Z.eqb Pos.eqb]; intros []; gammas; push; rewrite ?RtoC_m1; ring [Rd Hi].
Qed.

(** Two-component states along a momentum. *)
Record xi_ok (p : mom) (P : R) (a b c d : C) : Prop := {
  x1 : (a * Cconj a = RtoC 1 - c * Cconj c)%C; x2 : (a * Cconj b = - (c * Cconj d))%C; x3 : (b * Cconj a = - (d * Cconj c))%C; x4 : (b * Cconj b = RtoC 1 - d * Cconj d)%C;
  x5 : ((RtoC 1 + RtoC 1) * RtoC P * c * Cconj c = RtoC P - RtoC (pz p))%C; x6 : ((RtoC 1 + RtoC 1) * RtoC P * c * Cconj d = - zb p)%C;
  x7 : ((RtoC 1 + RtoC 1) * RtoC P * d * Cconj c = - zz p)%C; x8 : ((RtoC 1 + RtoC 1) * RtoC P * d * Cconj d = RtoC P + RtoC (pz p))%C;
  x9 : (zb p * b = RtoC P * a - RtoC (pz p) * a)%C; x10 : (zz p * a = RtoC P * b + RtoC (pz p) * b)%C;
  x11 : (zb p * d = - RtoC P * c - RtoC (pz p) * c)%C; x12 : (zz p * c = - RtoC P * d + RtoC (pz p) * d)%C;
  y1 : (a * Cconj a + b * Cconj b = RtoC 1)%C; y2 : (c * Cconj c + d * Cconj d = RtoC 1)%C; y3 : (c * Cconj a + d * Cconj b = RtoC 0)%C; y4 : (a * Cconj c + b * Cconj d = RtoC 0)%C;
  y5 : c = (- Cconj b)%C; y6 : d = Cconj a }.
Lemma move (a b c : C) : (a + c = b -> a = b - c)%C. Proof. intro H. rewrite <- H. ring. Qed.
Lemma lin (A B L R c : C) : L = R -> (A = B + c * (L - R))%C -> A = B. Proof. intros -> ->. ring. Qed.
Lemma xi_rest p : px p = 0 -> py p = 0 -> pz p = 0 -> xi_ok p 0 (RtoC 1) (RtoC 0) (RtoC 0) (RtoC 1).
Proof. intros X Y Z. constructor; unfold zz, zb; rewrite ?X, ?Y, ?Z; push; ring. Qed.
Lemma xi_generic p : ~ Rabs (pP p + pz p) < tiny -> 0 < pP p /\ xi_ok p (pP p) (fst (xi p 0)) (snd (xi p 0)) (fst (xi p 1)) (snd (xi p 1)).
Proof.
  intro A. pose proof (pP_sq p) as Q. pose proof (pP_pos p) as P0.
  assert (Hz : 0 < pP p + pz p).
  { assert (pz p * pz p <= pP p * pP p). { pose proof (Rle_0_sqr (px p)); pose proof (Rle_0_sqr (py p)). unfold Rsqr in *. lra. }
    assert (0 <= pP p + pz p) by (apply Rnot_lt_le; intro; nra). unfold tiny in A. rewrite Rabs_right in A; lra. }
  assert (Hp : 0 < pP p).
  { destruct P0 as [P0|P0]; [exact P0|]. rewrite <- P0 in Q, Hz. exfalso. pose proof (Rle_0_sqr (px p)); pose proof (Rle_0_sqr (py p)). unfold Rsqr in *. nra. }
  split; [exact Hp|].
  unfold xi, xi_norm, Ternary, zz, zb. destruct (aligned p) as [B|_]; [contradiction|]. cbn [fst snd].
  assert (Rn : (1 + 1) * (1 / sqrt (2 * pP p * (pP p + pz p))) * (1 / sqrt (2 * pP p * (pP p + pz p))) * pP p * pP p = 1 - (1 + 1) * (1 / sqrt (2 * pP p * (pP p + pz p))) * (1 / sqrt (2 * pP p * (pP p + pz p))) * pP p * pz p).
  { assert (D : 0 < 2 * pP p * (pP p + pz p)) by nra. pose proof (sqrt_lt_R0 _ D) as D0.
    assert (Z : (1 / sqrt (2 * pP p * (pP p + pz p))) * (1 / sqrt (2 * pP p * (pP p + pz p))) = / (2 * pP p * (pP p + pz p))).
    { unfold Rdiv. rewrite !Rmult_1_l. rewrite <- Rinv_mult, sqrt_sqrt by lra. reflexivity. }
    set (n := 1 / sqrt _) in *. clearbody n. replace ((1 + 1) * n * n * pP p * pP p) with ((1 + 1) * (n * n) * pP p * pP p) by ring.
    replace ((1 + 1) * n * n * pP p * pz p) with ((1 + 1) * (n * n) * pP p * pz p) by ring. rewrite Z. field. lra. }
  set (n := 1 / sqrt _) in *. set (P := pP p) in *. clearbody n P. destruct p as [x y z e]. cbn [px py pz en] in *.
  assert (Rx : x * x = P * P - y * y - z * z) by lra. clear Q.
  toC Rn; toC Rx. pose proof ii as Hi.
  constructor; unfold zz, zb; cbn [px py pz en]; push; try ring [Rx Rn Hi].
  - apply move. ring [Rx Rn Hi].
  - apply move. ring [Rx Rn Hi].
Qed.

Definition half_states (id : Z) (m P : R) (p : mom) (a b c d : C) (s : Z) : vec :=
  let N := RtoC (sqrt ((en p + m) / (2 * m))) in let k := RtoC (P * IZR s / (en p + m)) in
  let x := if (s =? 1)%Z then (a, b) else (c, d) in
  if (id >? 0)%Z then (fun i => (N * four (fst x) (snd x) (k * fst x) (k * snd x) i)%C) else (fun i => (N * Ci * four (k * fst x) (k * snd x) (fst x) (snd x) i)%C).
Lemma ws_half id m p s : id <> 0%Z -> ws id m p s = half_states id m (pP p) p (fst (xi p 0)) (snd (xi p 0)) (fst (xi p 1)) (snd (xi p 1)) s.
Proof. intro H. unfold ws, weyl_spinor, half_states. destruct id; [congruence| |]; cbn [Z.gtb Z.compare Z.ltb]; destruct (s =? 1)%Z; reflexivity. Qed.

Section Half.
  Variables (p : mom) (m P : R) (a b c d : C).
  Hypothesis H : on_shell p m.
  Hypothesis HP : P * P = px p * px p + py p * py p + pz p * pz p.
  Hypothesis X : xi_ok p P a b c d.
  Lemma half_spinors id : id <> 0%Z -> spinor_states (Z.sgn id) p m (half_states id m P p a b c d).
  Proof.
    intro Hid. destruct H as (Hm & He & S). assert (Hs : (id >? 0)%Z = true /\ Z.sgn id = 1%Z \/ ((id >? 0)%Z = false /\ (id <? 0)%Z = true /\ Z.sgn id = (-1)%Z)).
    { destruct id; [congruence| |]; cbn; [left|right]; repeat split. }
    destruct X as [X1 X2 X3 X4 X5 X6 X7 X8 X9 X10 X11 X12 Y1 Y2 Y3 Y4 _ _]. clear X.
    unfold spinor_states, half_states, dirac. cbn [px py pz en].
    pose proof (norm_sq (en p) m Hm He) as RN. unfold Rdiv in *. rewrite ?Rmult_1_l.
    assert (Rd : / (en p + m) * en p = 1 - / (en p + m) * m) by (field; lra).
    assert (Rp : / (en p + m) * P * P = en p - m). { rewrite Rmult_assoc. rewrite HP. replace (px p * px p + py p * py p + pz p * pz p) with ((en p - m) * (en p + m)) by lra. field. lra. }
    assert (Rh : (1 + 1) * / (2 * m) * m = 1) by (field; lra). pose proof ii as Hi.
    set (N := sqrt _) in *. set (dd := / (en p + m)) in *. set (h := / (2 * m)) in *. clearbody N dd h. clear S.
    assert (Sm : N * N * dd = h). { rewrite RN. replace ((en p * h + m * h) * dd) with (h * (dd * en p + dd * m)) by ring. rewrite Rd. ring. }
    assert (Sk : N * N * dd * dd * P * P = h * (en p - m)). { rewrite Sm. replace (h * dd * P * P) with (h * (dd * P * P)) by ring. rewrite Rp. ring. }
    assert (S1 : N * N * (1 - dd * dd * P * P) = 1). { replace (N * N * (1 - dd * dd * P * P)) with (N * N - N * N * dd * dd * P * P) by ring. rewrite Sk, RN. replace (en p * h + m * h - h * (en p - m)) with ((1 + 1) * h * m) by ring. exact Rh. }
    toC RN; toC Rd; toC Rp; toC Rh; toC Sm; toC Sk; toC S1.
    destruct p as [x y z e]. unfold zz, zb in *. cbn [px py pz en] in *.
    assert (D1 : (Ci * RtoC y * b = RtoC x * b - RtoC P * a + RtoC z * a)%C) by (transitivity (RtoC x * b - (RtoC x - Ci * RtoC y) * b)%C; [ring|rewrite X9; ring]).
    assert (D2 : (Ci * RtoC y * a = RtoC P * b + RtoC z * b - RtoC x * a)%C) by (transitivity ((RtoC x + Ci * RtoC y) * a - RtoC x * a)%C; [ring|rewrite X10; ring]).
    assert (D3 : (Ci * RtoC y * d = RtoC x * d + RtoC P * c + RtoC z * c)%C) by (transitivity (RtoC x * d - (RtoC x - Ci * RtoC y) * d)%C; [ring|rewrite X11; ring]).
    assert (D4 : (Ci * RtoC y * c = - RtoC P * d + RtoC z * d - RtoC x * c)%C) by (transitivity ((RtoC x + Ci * RtoC y) * c - RtoC x * c)%C; [ring|rewrite X12; ring]).
    clear X9 X10 X11 X12.
    assert (W1 : (a * Cconj a = RtoC 1 - b * Cconj b)%C) by (rewrite <- Y1; ring). assert (W2 : (c * Cconj c = RtoC 1 - d * Cconj d)%C) by (rewrite <- Y2; ring).
    assert (W3 : (c * Cconj a = - (d * Cconj b))%C) by (transitivity (c * Cconj a + d * Cconj b - d * Cconj b)%C; [ring|rewrite Y3; ring]).
    assert (W4 : (a * Cconj c = - (b * Cconj d))%C) by (transitivity (a * Cconj c + b * Cconj d - b * Cconj d)%C; [ring|rewrite Y4; ring]).
    assert (T1 : (a * Cconj a + c * Cconj c = RtoC 1)%C) by (rewrite X1; ring). assert (T2 : (a * Cconj b + c * Cconj d = RtoC 0)%C) by (rewrite X2; ring).
    assert (T3 : (b * Cconj a + d * Cconj c = RtoC 0)%C) by (rewrite X3; ring). assert (T4 : (b * Cconj b + d * Cconj d = RtoC 1)%C) by (rewrite X4; ring).
    assert (V1 : (RtoC P * (a * Cconj a - c * Cconj c) = RtoC z)%C) by (rewrite X1; transitivity (RtoC P - (RtoC 1 + RtoC 1) * RtoC P * c * Cconj c)%C; [ring|rewrite X5; ring]).
    assert (V2 : (RtoC P * (a * Cconj b - c * Cconj d) = RtoC x - Ci * RtoC y)%C) by (rewrite X2; transitivity (- ((RtoC 1 + RtoC 1) * RtoC P * c * Cconj d))%C; [ring|rewrite X6; ring]).
    assert (V3 : (RtoC P * (b * Cconj a - d * Cconj c) = RtoC x + Ci * RtoC y)%C) by (rewrite X3; transitivity (- ((RtoC 1 + RtoC 1) * RtoC P * d * Cconj c))%C; [ring|rewrite X7; ring]).
    assert (V4 : (RtoC P * (b * Cconj b - d * Cconj d) = - RtoC z)%C) by (rewrite X4; transitivity (RtoC P - (RtoC 1 + RtoC 1) * RtoC P * d * Cconj d)%C; [ring|rewrite X8; ring]).
    clear X1 X2 X3 X4 X5 X6 X7 X8 W1 W2 W3 W4.
    set (a' := Cconj a) in *. set (b' := Cconj b) in *. set (c' := Cconj c) in *. set (d' := Cconj d) in *.
    destruct Hs as [(E1 & E3)|(E1 & E2 & E3)]; rewrite E3, E1; cbn [andb].
    - split; [|split].
      + intros s I. apply vec_ext. intro a0. states; destruct a0; cbn [Z.eqb Pos.eqb fst snd]; gammas; push; rewrite ?RtoC_m1.
        * apply (lin _ _ _ _ (RtoC N * RtoC P * RtoC dd)%C D1). first [ring [Rp] | ring [Rd] | ring [Rd Rp]].
        * apply (lin _ _ _ _ (- (RtoC N * RtoC P * RtoC dd))%C D2). first [ring [Rp] | ring [Rd] | ring [Rd Rp]].
        * apply (lin _ _ _ _ (- RtoC N)%C D1). first [ring [Rp] | ring [Rd] | ring [Rd Rp]].
        * apply (lin _ _ _ _ (RtoC N)%C D2). first [ring [Rp] | ring [Rd] | ring [Rd Rp]].
        * apply (lin _ _ _ _ (- (RtoC N * RtoC P * RtoC dd))%C D3). first [ring [Rp] | ring [Rd] | ring [Rd Rp]].
        * apply (lin _ _ _ _ (RtoC N * RtoC P * RtoC dd)%C D4). first [ring [Rp] | ring [Rd] | ring [Rd Rp]].
        * apply (lin _ _ _ _ (- RtoC N)%C D3). first [ring [Rp] | ring [Rd] | ring [Rd Rp]].
        * apply (lin _ _ _ _ (RtoC N)%C D4). first [ring [Rp] | ring [Rd] | ring [Rd Rp]].
      + intros s t I J. states; unfold delta; cbn [Z.eqb Pos.eqb Z.opp fst snd];
          match goal with |- context[if ?d then _ else _] => destruct d; [|try congruence]; try congruence end; gammas; push; fold a' b' c' d'; rewrite ?RtoC_m1.
        * transitivity (RtoC N * RtoC N * (RtoC 1 - RtoC dd * RtoC dd * RtoC P * RtoC P) * (a * a' + b * b'))%C; [ring [Hi]|]. rewrite Y1. rewrite S1. ring.
        * transitivity (RtoC N * RtoC N * (RtoC 1 + RtoC dd * RtoC dd * RtoC P * RtoC P) * (a * c' + b * d'))%C; [ring [Hi]|]. rewrite Y4. ring.
        * transitivity (RtoC N * RtoC N * (RtoC 1 + RtoC dd * RtoC dd * RtoC P * RtoC P) * (c * a' + d * b'))%C; [ring [Hi]|]. rewrite Y3. ring.
        * transitivity (RtoC N * RtoC N * (RtoC 1 - RtoC dd * RtoC dd * RtoC P * RtoC P) * (c * c' + d * d'))%C; [ring [Hi]|]. rewrite Y2. rewrite S1. ring.
      + intros [] []; cbn [Z.eqb Pos.eqb fst snd]; gammas; push; fold a' b' c' d'; rewrite ?RtoC_m1.
        * transitivity ((RtoC N * RtoC N * (a * a' + c * c')))%C; [ring [Hi]|]. rewrite T1, RN. ring.
        * transitivity ((RtoC N * RtoC N * (a * b' + c * d')))%C; [ring [Hi]|]. rewrite T2, RN. ring.
        * transitivity (-(RtoC N * RtoC N * RtoC dd * (RtoC P * (a * a' - c * c'))))%C; [ring [Hi]|]. rewrite V1, Sm. ring.
        * transitivity (-(RtoC N * RtoC N * RtoC dd * (RtoC P * (a * b' - c * d'))))%C; [ring [Hi]|]. rewrite V2, Sm. ring.
        * transitivity ((RtoC N * RtoC N * (b * a' + d * c')))%C; [ring [Hi]|]. rewrite T3, RN. ring.
        * transitivity ((RtoC N * RtoC N * (b * b' + d * d')))%C; [ring [Hi]|]. rewrite T4, RN. ring.
        * transitivity (-(RtoC N * RtoC N * RtoC dd * (RtoC P * (b * a' - d * c'))))%C; [ring [Hi]|]. rewrite V3, Sm. ring.
        * transitivity (-(RtoC N * RtoC N * RtoC dd * (RtoC P * (b * b' - d * d'))))%C; [ring [Hi]|]. rewrite V4, Sm. ring.
        * transitivity ((RtoC N * RtoC N * RtoC dd * (RtoC P * (a * a' - c * c'))))%C; [ring [Hi]|]. rewrite V1, Sm. ring.
        * transitivity ((RtoC N * RtoC N * RtoC dd * (RtoC P * (a * b' - c * d'))))%C; [ring [Hi]|]. rewrite V2, Sm. ring.
        * transitivity (-(RtoC N * RtoC N * RtoC dd * RtoC dd * RtoC P * RtoC P * (a * a' + c * c')))%C; [ring [Hi]|]. rewrite T1, Sk. ring.
        * transitivity (-(RtoC N * RtoC N * RtoC dd * RtoC dd * RtoC P * RtoC P * (a * b' + c * d')))%C; [ring [Hi]|]. rewrite T2, Sk. ring.
        * transitivity ((RtoC N * RtoC N * RtoC dd * (RtoC P * (b * a' - d * c'))))%C; [ring [Hi]|]. rewrite V3, Sm. ring.
        * transitivity ((RtoC N * RtoC N * RtoC dd * (RtoC P * (b * b' - d * d'))))%C; [ring [Hi]|]. rewrite V4, Sm. ring.
        * transitivity (-(RtoC N * RtoC N * RtoC dd * RtoC dd * RtoC P * RtoC P * (b * a' + d * c')))%C; [ring [Hi]|]. rewrite T3, Sk. ring.
        * transitivity (-(RtoC N * RtoC N * RtoC dd * RtoC dd * RtoC P * RtoC P * (b * b' + d * d')))%C; [ring [Hi]|]. rewrite T4, Sk. ring.
    - split; [|split].
      + intros s I. apply vec_ext. intro a0. states; destruct a0; cbn [Z.eqb Pos.eqb fst snd]; gammas; push; rewrite ?RtoC_m1.
        * apply (lin _ _ _ _ (RtoC N * Ci)%C D1). first [ring [Rp] | ring [Rd] | ring [Rd Rp]].
        * apply (lin _ _ _ _ (- (RtoC N * Ci))%C D2). first [ring [Rp] | ring [Rd] | ring [Rd Rp]].
        * apply (lin _ _ _ _ (- (RtoC N * Ci * RtoC P * RtoC dd))%C D1). first [ring [Rp] | ring [Rd] | ring [Rd Rp]].
        * apply (lin _ _ _ _ (RtoC N * Ci * RtoC P * RtoC dd)%C D2). first [ring [Rp] | ring [Rd] | ring [Rd Rp]].
        * apply (lin _ _ _ _ (RtoC N * Ci)%C D3). first [ring [Rp] | ring [Rd] | ring [Rd Rp]].
        * apply (lin _ _ _ _ (- (RtoC N * Ci))%C D4). first [ring [Rp] | ring [Rd] | ring [Rd Rp]].
        * apply (lin _ _ _ _ (RtoC N * Ci * RtoC P * RtoC dd)%C D3). first [ring [Rp] | ring [Rd] | ring [Rd Rp]].
        * apply (lin _ _ _ _ (- (RtoC N * Ci * RtoC P * RtoC dd))%C D4). first [ring [Rp] | ring [Rd] | ring [Rd Rp]].
      + intros s t I J. states; unfold delta; cbn [Z.eqb Pos.eqb Z.opp fst snd];
          match goal with |- context[if ?d then _ else _] => destruct d; [|try congruence]; try congruence end; gammas; push; fold a' b' c' d'; rewrite ?RtoC_m1.
        * transitivity (- (RtoC N * RtoC N * (RtoC 1 - RtoC dd * RtoC dd * RtoC P * RtoC P)) * (a * a' + b * b'))%C; [ring [Hi]|]. rewrite Y1. rewrite S1. ring.
        * transitivity (- (RtoC N * RtoC N * (RtoC 1 + RtoC dd * RtoC dd * RtoC P * RtoC P)) * (a * c' + b * d'))%C; [ring [Hi]|]. rewrite Y4. ring.
        * transitivity (- (RtoC N * RtoC N * (RtoC 1 + RtoC dd * RtoC dd * RtoC P * RtoC P)) * (c * a' + d * b'))%C; [ring [Hi]|]. rewrite Y3. ring.
        * transitivity (- (RtoC N * RtoC N * (RtoC 1 - RtoC dd * RtoC dd * RtoC P * RtoC P)) * (c * c' + d * d'))%C; [ring [Hi]|]. rewrite Y2. rewrite S1. ring.
      + intros [] []; cbn [Z.eqb Pos.eqb fst snd]; gammas; push; fold a' b' c' d'; rewrite ?RtoC_m1.
        * transitivity ((RtoC N * RtoC N * RtoC dd * RtoC dd * RtoC P * RtoC P * (a * a' + c * c')))%C; [ring [Hi]|]. rewrite T1, Sk. ring.
        * transitivity ((RtoC N * RtoC N * RtoC dd * RtoC dd * RtoC P * RtoC P * (a * b' + c * d')))%C; [ring [Hi]|]. rewrite T2, Sk. ring.
        * transitivity (-(RtoC N * RtoC N * RtoC dd * (RtoC P * (a * a' - c * c'))))%C; [ring [Hi]|]. rewrite V1, Sm. ring.
        * transitivity (-(RtoC N * RtoC N * RtoC dd * (RtoC P * (a * b' - c * d'))))%C; [ring [Hi]|]. rewrite V2, Sm. ring.
        * transitivity ((RtoC N * RtoC N * RtoC dd * RtoC dd * RtoC P * RtoC P * (b * a' + d * c')))%C; [ring [Hi]|]. rewrite T3, Sk. ring.
        * transitivity ((RtoC N * RtoC N * RtoC dd * RtoC dd * RtoC P * RtoC P * (b * b' + d * d')))%C; [ring [Hi]|]. rewrite T4, Sk. ring.
        * transitivity (-(RtoC N * RtoC N * RtoC dd * (RtoC P * (b * a' - d * c'))))%C; [ring [Hi]|]. rewrite V3, Sm. ring.
        * transitivity (-(RtoC N * RtoC N * RtoC dd * (RtoC P * (b * b' - d * d'))))%C; [ring [Hi]|]. rewrite V4, Sm. ring.
        * transitivity ((RtoC N * RtoC N * RtoC dd * (RtoC P * (a * a' - c * c'))))%C; [ring [Hi]|]. rewrite V1, Sm. ring.
        * transitivity ((RtoC N * RtoC N * RtoC dd * (RtoC P * (a * b' - c * d'))))%C; [ring [Hi]|]. rewrite V2, Sm. ring.
        * transitivity (-(RtoC N * RtoC N * (a * a' + c * c')))%C; [ring [Hi]|]. rewrite T1, RN. ring.
        * transitivity (-(RtoC N * RtoC N * (a * b' + c * d')))%C; [ring [Hi]|]. rewrite T2, RN. ring.
        * transitivity ((RtoC N * RtoC N * RtoC dd * (RtoC P * (b * a' - d * c'))))%C; [ring [Hi]|]. rewrite V3, Sm. ring.
        * transitivity ((RtoC N * RtoC N * RtoC dd * (RtoC P * (b * b' - d * d'))))%C; [ring [Hi]|]. rewrite V4, Sm. ring.
        * transitivity (-(RtoC N * RtoC N * (b * a' + d * c')))%C; [ring [Hi]|]. rewrite T3, RN. ring.
        * transitivity (-(RtoC N * RtoC N * (b * b' + d * d')))%C; [ring [Hi]|]. rewrite T4, RN. ring.
  Qed.
End Half.
