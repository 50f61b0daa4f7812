From Verif.Common Require Import Prelude.
From Coq Require Import Reals ZArith Lra Field.
From Coquelicot Require Import Hierarchy Complex.
From Verif.Vertex Require Import Model Spec Algebra.
From Verif.External Require Import Model Spec Proofs.
Local Open Scope R_scope.

Lemma pP_pos p : 0 <= pP p. Proof. apply sqrt_pos. Qed.
Lemma sum_pos p : 0 <= px p * px p + py p * py p + pz p * pz p.
Proof. pose proof (Rle_0_sqr (px p)); pose proof (Rle_0_sqr (py p)); pose proof (Rle_0_sqr (pz p)). unfold Rsqr in *. lra. Qed.
Lemma pP_sq p : pP p * pP p = px p * px p + py p * py p + pz p * pz p.
Proof. apply sqrt_sqrt, sum_pos. Qed.
Lemma pP_len p : pP p = length3 p. Proof. reflexivity. Qed.

(** A direction well away from the third axis. *)
Lemma generic p : tiny < px p * px p + py p * py p ->
  tiny < pP p /\ 0 < pP p + pz p /\ invP p = 1 / pP p /\ pZoverP p = pz p / pP p /\ ff p = 1 / (pP p + pz p).
Proof.
  intro H. pose proof (pP_sq p) as Q. pose proof (pP_pos p) as P0. unfold tiny in *.
  pose proof (Rle_0_sqr (pz p)) as Z2. unfold Rsqr in Z2.
  assert (Hp : 1 / 1000000 < pP p) by (apply Rnot_le_lt; intro C; nra).
  assert (Hz : 0 < pP p + pz p) by (apply Rnot_le_lt; intro C; nra).
  repeat split; try assumption.
  - unfold invP, Ternary, tiny. destruct (Rlt_dec _ _); [reflexivity|lra].
  - unfold pZoverP, Ternary, tiny. destruct (Rlt_dec _ _); [reflexivity|lra].
  - unfold ff, invPT2, Ternary, tiny. destruct (Rlt_dec _ _); [|lra].
    replace (px p * px p + py p * py p) with ((pP p - pz p) * (pP p + pz p)) by lra.
    field. split; [lra|]. intro C. nra.
Qed.
(** Along the axis, or at rest: [c] is the direction. *)
Lemma axis p : px p = 0 -> py p = 0 -> pz p = 0 \/ tiny < Rabs (pz p) ->
  exists c, c * c = 1 /\ pP p = c * pz p /\ pZoverP p = c /\ (tiny < pz p -> c = 1) /\ (pz p < - tiny -> c = -1).
Proof.
  intros X Y Z. assert (Q : pP p = Rabs (pz p)).
  { unfold pP. rewrite X, Y. replace (0 * 0 + 0 * 0 + pz p * pz p) with (Rsqr (pz p)) by (unfold Rsqr; ring). apply sqrt_Rsqr_abs. }
  unfold pZoverP, Ternary. rewrite Q. unfold tiny in *. destruct Z as [Z|Z].
  - rewrite Z, Rabs_R0. exists 1. destruct (Rlt_dec _ _); lra.
  - destruct (Rlt_dec _ _); [|lra]. unfold Rabs in *. destruct (Rcase_abs (pz p)).
    + exists (-1). repeat split; try lra. field. lra.
    + exists 1. repeat split; try lra. field. lra.
Qed.


Definition wv m p s := match weyl_vector m p s with Some v => v | None => zero end.
Lemma weyl_vectors_generic p m : on_shell p m -> tiny < px p * px p + py p * py p -> vector_states p m (wv m p).
Proof.
  intros (Hm & He & S) G. destruct (generic p G) as (Hp & Hz & E1 & E2 & E3). pose proof (pP_sq p) as Q.
  unfold vector_states, wv, weyl_vector. rewrite E1, E2, E3. clear E1 E2 E3.
  unfold zz, zb. unfold tiny in *. set (P := pP p) in *. clearbody P.
  destruct p as [x y z e]. unfold P4, ip, cbar. cbn [px py pz en] in *.
  assert (Sx : x * x = P * P - y * y - z * z) by lra. assert (Se : e * e = P * P + m * m) by lra. clear S Q G.
  unfold Rdiv. rewrite ?Rmult_1_l.
  assert (Ru : / P * P = 1) by (field; lra). assert (Rw : / (P + z) * z = 1 - / (P + z) * P) by (field; lra).
  assert (Ri : / m * m = 1) by (field; lra). pose proof twice_half as Hr. pose proof ii as Hi.
  replace (/ (m * m)) with (/ m * / m) by (field; lra).
  set (u := / P) in *. set (w := / (P + z)) in *. set (i := / m) in *. set (r := / sqrt 2) in *. clearbody u w i r.
  toC Sx; toC Se; toC Ru; toC Rw; toC Ri; toC Hr.
  split; [|split].
  - intros s I. states; unfold four; cbn [Z.eqb Pos.eqb]; push; ring [Sx Se Ru Rw Ri Hr Hi].
  - intros s t I J. states; unfold delta, four; cbn [Z.eqb Pos.eqb Z.eq_dec Z.opp]; 
       match goal with |- context[if ?d then _ else _] => destruct d; [|try congruence]; try congruence end; push; ring [Sx Se Ru Rw Ri Hr Hi].
  - intros [] []; unfold metric, four; cbn [Z.eqb Pos.eqb px py pz en]; push; ring [Sx Se Ru Rw Ri Hr Hi].
Qed.
Lemma weyl_vectors_axis p m : on_shell p m -> px p = 0 -> py p = 0 -> pz p = 0 \/ tiny < Rabs (pz p) -> vector_states p m (wv m p).
Proof.
  intros (Hm & He & S) X Y Z. destruct (axis p X Y Z) as (c & C2 & Pc & E2 & _). 
  unfold vector_states, wv, weyl_vector. rewrite E2, Pc. set (i := invP p). clearbody i. set (f := ff p). clearbody f.
  destruct p as [x y z e]. cbn [px py pz en] in *. subst x y.
  unfold P4, ip, cbar, zz, zb. cbn [px py pz en] in *.
  assert (Se : e * e = z * z + m * m) by lra. clear S.
  unfold Rdiv. rewrite ?Rmult_1_l.
  assert (Ri : / m * m = 1) by (field; lra). pose proof twice_half as Hr. pose proof ii as Hi.
  replace (/ (m * m)) with (/ m * / m) by (field; lra).
  set (k := / m) in *. set (r := / sqrt 2) in *. clearbody k r. toC Ri; toC Hr; toC C2.
  toC Se.
  split; [|split].
  - intros s I. states; unfold four; cbn [Z.eqb Pos.eqb]; push; ring [C2 Se Ri Hr Hi].
  - intros s t I J. states; unfold delta, four; cbn [Z.eqb Pos.eqb Z.eq_dec Z.opp]; 
       match goal with |- context[if ?d then _ else _] => destruct d; [|try congruence]; try congruence end; push; ring [C2 Se Ri Hr Hi].
  - intros [] []; unfold metric, four; cbn [Z.eqb Pos.eqb px py pz en]; push; ring [C2 Se Ri Hr Hi].
Qed.
Lemma weyl_helicity_generic p m s : tiny < px p * px p + py p * py p -> 0 < m -> In s (1 :: 0 :: -1 :: nil)%Z -> helicity_vector p (IZR s) (wv m p s).
Proof.
  intros G Hm I. destruct (generic p G) as (Hp & Hz & E1 & E2 & E3). pose proof (pP_sq p) as Q.
  unfold helicity_vector. rewrite <- pP_len. unfold wv, weyl_vector. rewrite E1, E2, E3. clear E1 E2 E3.
  unfold zz, zb. unfold tiny in *. set (P := pP p) in *. clearbody P.
  destruct p as [x y z e]. cbn [px py pz en] in *.
  assert (Sx : x * x = P * P - y * y - z * z) by lra. clear Q G.
  unfold Rdiv. rewrite ?Rmult_1_l.
  assert (Ru : / P * P = 1) by (field; lra). assert (Rw : / (P + z) * z = 1 - / (P + z) * P) by (field; lra).
  assert (Ri : / m * m = 1) by (field; lra). pose proof twice_half as Hr. pose proof ii as Hi.
  set (u := / P) in *. set (w := / (P + z)) in *. set (i := / m) in *. set (r := / sqrt 2) in *. clearbody u w i r.
  toC Sx; toC Ru; toC Rw; toC Ri; toC Hr.
  states; unfold four; cbn [Z.eqb Pos.eqb]; repeat split; push; rewrite ?RtoC_m1; ring [Sx Ru Rw Ri Hi].
Qed.
Lemma weyl_helicity_axis p m s : px p = 0 -> py p = 0 -> tiny < Rabs (pz p) -> 0 < m -> In s (1 :: 0 :: -1 :: nil)%Z ->
  helicity_vector p (if Rlt_dec 0 (pz p) then IZR s else - IZR s) (wv m p s).
Proof.
  intros X Y Z Hm I. destruct (axis p X Y (or_intror Z)) as (c & C2 & Pc & E2 & D1 & D2).
  assert (Ec : (if Rlt_dec 0 (pz p) then IZR s else - IZR s) = c * IZR s).
  { unfold tiny, Rabs in *. destruct (Rcase_abs (pz p)); destruct (Rlt_dec 0 (pz p)); try lra. - rewrite D2; lra. - rewrite D1; lra. }
  rewrite Ec. clear Ec D1 D2 Z.
  unfold helicity_vector. rewrite <- pP_len. unfold wv, weyl_vector. rewrite E2, Pc. set (i := invP p). clearbody i. set (f := ff p). clearbody f.
  destruct p as [x y z e]. cbn [px py pz en] in *. subst x y.
  unfold zz, zb. cbn [px py pz en] in *.
  unfold Rdiv. rewrite ?Rmult_1_l.
  assert (Ri : / m * m = 1) by (field; lra). pose proof twice_half as Hr. pose proof ii as Hi.
  set (k := / m) in *. set (r := / sqrt 2) in *. clearbody k r. toC Ri; toC Hr; toC C2.
  states; unfold four; cbn [Z.eqb Pos.eqb]; repeat split; push; rewrite ?RtoC_m1; ring [C2 Hi].
Qed.
