From Verif.Common Require Import Prelude.
From Coq Require Import Reals Lra Field FunctionalExtensionality.
From Coquelicot Require Import Hierarchy Complex.
From Verif.Vertex Require Import Model Spec Algebra.
Local Open Scope C_scope.

Lemma three_neq : RtoC 3 <> 0. Proof. intro H. apply RtoC_inj in H. lra. Qed.
Lemma two_neq : RtoC 2 <> 0. Proof. intro H. apply RtoC_inj in H. lra. Qed.
Lemma C3 : RtoC 3 = 1 + 1 + 1. Proof. rewrite <- !RtoC_plus. f_equal; ring. Qed.
Lemma C2 : RtoC 2 = 1 + 1. Proof. rewrite <- !RtoC_plus. f_equal; ring. Qed.
Lemma half_half : 1 / 2 + 1 / 2 = 1. Proof. rewrite <- !RtoC_div by lra. rewrite <- RtoC_plus. f_equal. lra. Qed.

Lemma pwave_eq p q : Orbital_PWave p q = vadd q (vsc (- (ip p q * (1 / ip p p))) p).
Proof. apply vec_ext. intro i. unfold Orbital_PWave, vadd, vsc. rewrite !dot_ip. ring. Qed.
Lemma metric_right v : on_right Metric4x4 v = v.
Proof. apply vec_ext. intro i. unfold on_right, ip, Metric4x4. destruct i; ring. Qed.
Lemma S_right P v : on_right (Spin1Projector P) v = Orbital_PWave P v.
Proof.
  apply vec_ext. intro i. pose proof (f_equal (fun f => f i) (metric_right v)) as M. unfold on_right in M.
  unfold on_right, Spin1Projector, Orbital_PWave. rewrite !dot_ip. unfold ip at 1. unfold ip at 1 in M.
  rewrite <- M at 1. set (n := 1 / ip P P). unfold ip. ring.
Qed.
Lemma S_sym P i j : Spin1Projector P i j = Spin1Projector P j i.
Proof. unfold Spin1Projector. rewrite (Cmult_comm (P i) (P j)). f_equal. now destruct i, j. Qed.
Lemma S_left P v : on_left v (Spin1Projector P) = Orbital_PWave P v.
Proof. rewrite on_left_flip, <- S_right. f_equal. apply ten_ext. intros. apply S_sym. Qed.
Lemma D_eq P Q : Orbital_DWave P Q = tadd (fun i j => Orbital_PWave P Q i * Orbital_PWave P Q j)
    (tsc (- (ip (Orbital_PWave P Q) (Orbital_PWave P Q) / 3)) (Spin1Projector P)).
Proof. apply ten_ext. intros i j. unfold Orbital_DWave, tadd, tsc. rewrite dot_ip. ring. Qed.
Lemma on_right_add A B v : on_right (tadd A B) v = vadd (on_right A v) (on_right B v).
Proof. apply vec_ext. intro. unfold on_right, tadd, vadd, ip. ring. Qed.
Lemma on_right_outer a b v : on_right (fun i j => a i * b j) v = vsc (ip b v) a.
Proof. apply vec_ext. intro. unfold on_right, vsc, ip. ring. Qed.
Lemma D_right P Q v : on_right (Orbital_DWave P Q) v =
  vadd (vsc (ip (Orbital_PWave P Q) v) (Orbital_PWave P Q)) (vsc (- (ip (Orbital_PWave P Q) (Orbital_PWave P Q) / 3)) (Orbital_PWave P v)).
Proof. now rewrite D_eq, on_right_add, on_right_outer, on_right_sc, S_right. Qed.
Lemma D_sym P Q i j : Orbital_DWave P Q i j = Orbital_DWave P Q j i.
Proof. unfold Orbital_DWave. rewrite (S_sym P j i). ring. Qed.
Lemma D_left P Q v : on_left v (Orbital_DWave P Q) = on_right (Orbital_DWave P Q) v.
Proof. rewrite on_left_flip. f_equal. apply ten_ext. intros. apply D_sym. Qed.

Section Massive.
  Variable P : vec.
  Hypothesis N : ip P P <> 0.
  Lemma pwave_trans q : ip P (Orbital_PWave P q) = 0.
  Proof. rewrite pwave_eq, ip_add_r, ip_sc_r. field. exact N. Qed.
  Lemma pwave_P : Orbital_PWave P P = zero.
  Proof. apply vec_ext. intro i. unfold Orbital_PWave, zero. rewrite !dot_ip. field. exact N. Qed.
  Lemma pwave_id q : ip P q = 0 -> Orbital_PWave P q = q.
  Proof. intro H. apply vec_ext. intro i. unfold Orbital_PWave. rewrite !dot_ip, H. ring. Qed.
  Lemma pwave_idem q : Orbital_PWave P (Orbital_PWave P q) = Orbital_PWave P q. Proof. apply pwave_id, pwave_trans. Qed.
  Lemma pwave_add a b : Orbital_PWave P (vadd a b) = vadd (Orbital_PWave P a) (Orbital_PWave P b).
  Proof. rewrite !pwave_eq, ip_add_r. apply vec_ext. intro i. unfold vadd, vsc. ring. Qed.
  Lemma pwave_sc x a : Orbital_PWave P (vsc x a) = vsc x (Orbital_PWave P a).
  Proof. rewrite !pwave_eq, ip_sc_r. apply vec_ext. intro i. unfold vadd, vsc. ring. Qed.
  Lemma pwave_adj a b : ip (Orbital_PWave P a) b = ip a (Orbital_PWave P b).
  Proof. now rewrite <- (S_left P a), on_left_right, S_right. Qed.
  Lemma trace_S : trace (Spin1Projector P) = 3.
  Proof.
    unfold trace, Spin1Projector, Metric4x4. rewrite dot_ip, C3. set (n := 1 / ip P P).
    assert (n * ip P P = 1) as H by (unfold n; field; exact N). unfold ip in H.
    transitivity (1 + 1 + 1 + 1 - n * (P I3 * P I3 - P I0 * P I0 - P I1 * P I1 - P I2 * P I2)); [ring|]. rewrite H. ring.
  Qed.
  Lemma trace_add A B : trace (tadd A B) = trace A + trace B. Proof. unfold trace, tadd. ring. Qed.
  Lemma trace_sc x A : trace (tsc x A) = x * trace A. Proof. unfold trace, tsc. ring. Qed.
  Lemma trace_outer a b : trace (fun i j => a i * b j) = ip a b. Proof. unfold trace, ip. ring. Qed.
  Lemma trace_D Q : trace (Orbital_DWave P Q) = 0.
  Proof. rewrite D_eq, trace_add, trace_sc, trace_outer, trace_S. field. apply three_neq. Qed.
  Lemma D_trans Q : transverse2 P (Orbital_DWave P Q).
  Proof.
    split; rewrite ?D_left, D_right, pwave_P, (ip_sym _ P), pwave_trans; apply vec_ext; intro; unfold vadd, vsc, zero; ring.
  Qed.
End Massive.

(** ** The projector on spin 2 *)
Definition project2 (P : vec) (T : ten) : ten := contract2 (Spin2Projector P) T.
Definition both (P : vec) (T : ten) : ten := prod2 (prod2 (Spin1Projector P) T) (Spin1Projector P).
Lemma both_eq P T i j : both P T i j = ip (fun _ => 1) (fun m => ip (fun _ => 1) (fun n => Spin1Projector P m i * Spin1Projector P n j * T m n)).
Proof. unfold both, prod2, ip. rewrite (S_sym P I0 i), (S_sym P I1 i), (S_sym P I2 i), (S_sym P I3 i). ring. Qed.
Lemma project2_eq P T : project2 P T = tadd (tsc (- (1 / 3) * pair2 (Spin1Projector P) T) (Spin1Projector P))
   (tsc (1 / 2) (tadd (both P T) (fun i j => both P T j i))).
Proof.
  apply ten_ext. intros i j. unfold project2, contract2, tadd, tsc. rewrite !both_eq. unfold Spin2Projector, pair2. set (S := Spin1Projector P).
  set (h := 1 / 2). set (th := 1 / 3). clearbody S h th. unfold ip. ring.
Qed.
Lemma both_right P T v : on_right (both P T) v = Orbital_PWave P (on_right T (Orbital_PWave P v)).
Proof. unfold both. now rewrite !on_right_prod, !S_right. Qed.
Lemma both_flip P T : (fun i j => both P T j i) = both P (fun i j => T j i).
Proof. apply ten_ext. intros i j. rewrite !both_eq. unfold ip. ring. Qed.
Section Spin2.
  Variable P : vec.
  Hypothesis N : ip P P <> 0.
  Lemma trace_both T : trace (both P T) = pair2 (Spin1Projector P) T.
  Proof.
    (* the trace of S T S is that of S S T *)
    assert (A : trace (both P T) = trace (prod2 (prod2 (Spin1Projector P) (Spin1Projector P)) T)).
    { unfold both, prod2, trace. set (S := Spin1Projector P). clearbody S. unfold ip. ring. }
    assert (B : prod2 (Spin1Projector P) (Spin1Projector P) = Spin1Projector P).
    { apply on_right_inj. intro v. rewrite on_right_prod, !S_right. now apply pwave_idem. }
    rewrite A, B. unfold trace, prod2, pair2.
    assert (Sy := S_sym P). set (S := Spin1Projector P) in *. clearbody S. unfold ip.
    rewrite (Sy I1 I0), (Sy I2 I0), (Sy I3 I0), (Sy I2 I1), (Sy I3 I1), (Sy I3 I2). ring.
  Qed.
  Lemma zero_right T : on_right T zero = zero. Proof. apply vec_ext. intro. unfold on_right, zero, ip. ring. Qed.
  Lemma pwave_zero : Orbital_PWave P zero = zero. Proof. rewrite pwave_eq. apply vec_ext. intro. unfold vadd, vsc, zero, ip. ring. Qed.
  Lemma project2_state T : spin2_state P (project2 P T).
  Proof.
    rewrite project2_eq. assert (R : forall T', on_right (both P T') P = zero).
    { intro. rewrite both_right, pwave_P by exact N. rewrite zero_right. apply pwave_zero. }
    assert (Z : forall T', symmetric T' -> on_right T' P = zero -> transverse2 P T').
    { intros T' Sy H. split; [|exact H]. rewrite on_left_flip, <- H. f_equal. apply ten_ext. intros. apply Sy. }
    assert (Sy : symmetric (tadd (tsc (- (1 / 3) * pair2 (Spin1Projector P) T) (Spin1Projector P)) (tsc (1 / 2) (tadd (both P T) (fun i j : ix => both P T j i))))).
    { intros i j. unfold tadd, tsc. rewrite (S_sym P i j). ring. }
    split; [exact Sy|]. split.
    - apply (Z _ Sy). rewrite on_right_add, !on_right_sc, S_right, on_right_add, both_flip, !R, pwave_P by exact N.
      apply vec_ext. intro. unfold vadd, vsc, zero. ring.
    - rewrite trace_add, !trace_sc, trace_S, trace_add by exact N.
      replace (trace (fun i j => both P T j i)) with (trace (both P T)) by (unfold trace; ring). rewrite trace_both.
      set (p := pair2 _ _). transitivity (- (1 / 3 * 3) * p + (1 / 2 + 1 / 2) * p); [ring|].
      rewrite half_half. replace (1 / 3 * 3) with (RtoC 1) by (field; apply three_neq). ring.
  Qed.
  Lemma project2_id T : spin2_state P T -> project2 P T = T.
  Proof.
    intros (Sy & (Tl & Tr) & Tz). rewrite project2_eq.
    assert (B : both P T = T).
    { apply on_right_inj. intro v. rewrite both_right.
      assert (H : forall w, ip P (on_right T w) = 0).
      { intro w. rewrite <- on_left_right, Tl. unfold ip, zero. ring. }
      rewrite pwave_id by apply H. rewrite pwave_eq. apply vec_ext. intro i.
      apply (f_equal (fun f => f i)) in Tr. unfold on_right, zero in *. rewrite ip_add_r, ip_sc_r, Tr. ring. }
    assert (E : pair2 (Spin1Projector P) T = 0) by (rewrite <- trace_both, B; exact Tz).
    rewrite both_flip. replace (fun i j => T j i) with T by (apply ten_ext; intros; apply Sy). rewrite B, E.
    apply ten_ext. intros i j. unfold tadd, tsc.
    transitivity ((1 / 2 + 1 / 2) * T i j); [ring|]. rewrite half_half. ring.
  Qed.
  Lemma D_project q : Orbital_DWave P q = project2 P (fun i j => q i * q j).
  Proof.
    rewrite project2_eq. assert (B : both P (fun i j => q i * q j) = (fun i j => Orbital_PWave P q i * Orbital_PWave P q j)).
    { apply on_right_inj. intro v. rewrite both_right, !on_right_outer, pwave_sc. f_equal. symmetry. apply pwave_adj. }
    rewrite D_eq. rewrite <- trace_both, B, trace_outer. apply ten_ext. intros i j. unfold tadd, tsc.
    set (L := Orbital_PWave P q). set (n := ip L L).
    transitivity (n * (- (1/3)) * Spin1Projector P i j + (1 / 2 + 1 / 2) * (L i * L j)); [rewrite half_half|]; unfold Cdiv; ring.
  Qed.
End Spin2.
