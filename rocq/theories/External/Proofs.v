From Verif.Common Require Import Prelude.
From Coq Require Import Reals ZArith Lra Field.
From Coquelicot Require Import Hierarchy Complex.
From Verif.Vertex Require Import Model Spec Algebra.
From Verif.External Require Import Model Spec.
Local Open Scope R_scope.

Ltac parts := apply injective_projections; unfold Cminus, Cplus, Cmult, Copp, Cconj, RtoC, Ci; cbn [fst snd].
Lemma half_of_2 : / sqrt 2 * / sqrt 2 = / 2.
Proof. rewrite <- Rinv_mult, sqrt_sqrt; [reflexivity|lra]. Qed.
Lemma twice_half : (1 + 1) * / sqrt 2 * / sqrt 2 = 1. Proof. rewrite Rmult_assoc, half_of_2. field. Qed.
Lemma inv1 x : 1 / x = / x. Proof. unfold Rdiv. ring. Qed.
Lemma Cmult_conj a b : Cconj (a * b)%C = (Cconj a * Cconj b)%C. Proof. parts; ring. Qed.
Lemma Cplus_conj a b : Cconj (a + b)%C = (Cconj a + Cconj b)%C. Proof. parts; ring. Qed.
Lemma Copp_conj a : Cconj (- a)%C = (- Cconj a)%C. Proof. parts; ring. Qed.
Lemma Cminus_conj a b : Cconj (a - b)%C = (Cconj a - Cconj b)%C. Proof. parts; ring. Qed.
Lemma Cconj_R a : Cconj (RtoC a) = RtoC a. Proof. parts; ring. Qed.
Lemma Cconj_Ci : Cconj Ci = (- Ci)%C. Proof. parts; ring. Qed.
Lemma ii : (Ci * Ci)%C = (- RtoC 1)%C. Proof. parts; ring. Qed.
Ltac push := repeat (rewrite ?Cmult_conj, ?Cplus_conj, ?Cminus_conj, ?Copp_conj, ?Cconj_R, ?Cconj_Ci, ?RtoC_mult, ?RtoC_plus, ?RtoC_minus, ?RtoC_opp).
Lemma RtoC_rule a b c d : a * b = c + d -> (RtoC a * RtoC b = RtoC c + RtoC d)%C. Proof. intro H. rewrite <- RtoC_mult, <- RtoC_plus. now f_equal. Qed.
Ltac toC H := apply (f_equal RtoC) in H; repeat (rewrite RtoC_mult in H || rewrite RtoC_plus in H || rewrite RtoC_minus in H || rewrite RtoC_opp in H || (rewrite RtoC_inv in H; [|lra])).
Ltac states := repeat match goal with H : In _ (_ :: _) |- _ => destruct H as [<-|H] | H : In _ nil |- _ => destruct H end.
Ltac root2 := rewrite ?(inv1 (sqrt 2)); let r := fresh "r" in let Hr := fresh "Hr" in pose proof half_of_2 as Hr; set (r := / sqrt 2) in *; clearbody r.

(** Quotients are replaced by unknowns with the equations they satisfy, and the identities proved as polynomial ones. *)
Definition dv m p s := match dirac_vector m p s with Some v => v | None => zero end.
Ltac quotients := unfold Rdiv; rewrite ?Rmult_1_l.
Lemma dv_boost p m s : In s (1 :: 0 :: -1 :: nil)%Z -> forall i, dv m p s i = boosted_vector p m (rest_vector s) i.
Proof.
  intros I. destruct p as [x y z e]. states; unfold dv, dirac_vector, rest_vector; cbn [Z.eqb Pos.eqb];
    intros []; unfold boosted_vector, along, P4, four, zz, zb; cbn [px py pz en]; quotients;
    set (i := / m); set (q := / (m * (e + m))); set (r := / sqrt 2); clearbody i q r; parts; ring.
Qed.
Lemma dirac_vectors p m : on_shell p m -> vector_states p m (dv m p).
Proof.
  destruct p as [x y z e]. intros (Hm & He & S). cbn in He, S.
  assert (Sx : x * x = e * e - m * m - y * y - z * z) by lra. clear S.
  unfold vector_states, dv, dirac_vector, P4, ip, cbar, zz, zb. cbn [px py pz en]. quotients.
  assert (Rq : / (m * (e + m)) * x * x = e * / m - 1 - / (m * (e + m)) * y * y - / (m * (e + m)) * z * z).
  { replace (/ (m * (e + m)) * x * x) with (/ (m * (e + m)) * (x * x)) by ring. rewrite Sx. field. lra. }
  assert (Ri : / m * / m = / (m * (e + m)) + / (m * (e + m)) * e * / m) by (field; lra).
  pose proof twice_half as Hr.
  replace (/ (m * m)) with (/ m * / m) by (field; lra).
  set (i := / m) in *. set (q := / (m * (e + m))) in *. set (r := / sqrt 2) in *. clearbody i q r. clear Hm He Sx.
  toC Ri; toC Rq; toC Hr.
  pose proof ii as Hi.
  split; [|split].
  - intros s I. states; unfold four; cbn [Z.eqb Pos.eqb]; push; try ring [Rq Ri Hi].
  - intros s t I J. states; unfold delta, four; cbn [Z.eqb Pos.eqb Z.eq_dec Z.opp];
       match goal with |- context[if ?d then _ else _] => destruct d; [|try congruence]; try congruence end; push; ring [Rq Ri Hr Hi].
  - intros [] []; unfold metric, four; cbn [Z.eqb Pos.eqb]; push; ring [Rq Ri Hr Hi].
Qed.
