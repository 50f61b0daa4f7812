From Verif.Common Require Import Prelude.
From Coq Require Import Reals Lra Field FunctionalExtensionality.
From Coquelicot Require Import Hierarchy Complex.
From Verif.Vertex Require Import Model Spec.
Local Open Scope C_scope.

Lemma vec_ext (a b : vec) : (forall i, a i = b i) -> a = b. Proof. intro H. now apply functional_extensionality. Qed.
Lemma ten_ext (a b : ten) : (forall i j, a i j = b i j) -> a = b.
Proof. intro H. apply functional_extensionality. intro i. apply functional_extensionality. intro j. apply H. Qed.

(** ** Sums and products of vectors *)
Lemma dot_ip a b : dot a b = ip a b. Proof. unfold dot, ip, sum4, sgn. ring. Qed.
Lemma ip_sym a b : ip a b = ip b a. Proof. unfold ip. ring. Qed.
Lemma ip_add_l a b c : ip (vadd a b) c = ip a c + ip b c. Proof. unfold ip, vadd. ring. Qed.
Lemma ip_add_r a b c : ip a (vadd b c) = ip a b + ip a c. Proof. unfold ip, vadd. ring. Qed.
Lemma ip_sc_l x a b : ip (vsc x a) b = x * ip a b. Proof. unfold ip, vsc. ring. Qed.
Lemma ip_sc_r x a b : ip a (vsc x b) = x * ip a b. Proof. unfold ip, vsc. ring. Qed.
Definition unit_ (i : ix) : vec := fun j => Identity i j.
Lemma ip_unit i v : ip (unit_ i) v = sgn i * v i. Proof. unfold ip, unit_, Identity, sgn. destruct i; ring. Qed.
Lemma sgn2 i : sgn i * sgn i = 1. Proof. destruct i; unfold sgn; ring. Qed.
Lemma ip_inj a b : (forall v, ip v a = ip v b) -> a = b.
Proof.
  intro H. apply vec_ext. intro i. specialize (H (unit_ i)). rewrite !ip_unit in H.
  transitivity (sgn i * (sgn i * a i)). - rewrite Cmult_assoc, sgn2. ring. - rewrite H, Cmult_assoc, sgn2. ring.
Qed.
Lemma tv_eq T v : tv T v = on_right T v. Proof. apply vec_ext. intro i. unfold tv, on_right, ip, sum4, sgn. ring. Qed.
Lemma vt_eq T v : vt v T = on_left v T. Proof. apply vec_ext. intro i. unfold vt, on_left, ip, sum4, sgn. ring. Qed.
Definition prod2 (A B : ten) : ten := fun i k => ip (A i) (fun j => B j k).
Lemma tt_eq A B : tt A B = prod2 A B. Proof. apply ten_ext. intros i k. unfold tt, prod2, ip, sum4, sgn. ring. Qed.
Definition pair2 (A B : ten) : C := ip (fun _ => 1) (fun i => ip (A i) (B i)).
Lemma dot2_eq A B : dot2 A B = pair2 A B. Proof. unfold dot2, pair2, ip, sum4, sgn. ring. Qed.
Lemma on_right_inj A B : (forall v, on_right A v = on_right B v) -> A = B.
Proof.
  intro H. apply functional_extensionality. intro i. apply ip_inj. intro v. specialize (H v). apply (f_equal (fun f => f i)) in H.
  cbn in H. unfold on_right in H. rewrite (ip_sym v (A i)), (ip_sym v (B i)). exact H.
Qed.
Lemma on_right_prod A B v : on_right (prod2 A B) v = on_right A (on_right B v).
Proof. apply vec_ext. intro i. unfold on_right, prod2, ip. ring. Qed.
Lemma on_left_flip v T : on_left v T = on_right (fun i j => T j i) v.
Proof. apply vec_ext. intro i. unfold on_left, on_right. apply ip_sym. Qed.
Lemma on_left_right a T b : ip (on_left a T) b = ip a (on_right T b). Proof. unfold on_left, on_right, ip. ring. Qed.

(** ** The antisymmetric tensor *)
Lemma RtoC_m1 : RtoC (-1) = - RtoC 1. Proof. unfold RtoC, Copp. cbn. f_equal; ring. Qed.
Ltac lc := repeat match goal with |- context[LeviCivita ?a ?b ?c ?d] =>
  let v := eval vm_compute in (Z.quot (permutation_sign a b c d) (permutation_sign I0 I1 I2 I3)) in
  change (LeviCivita a b c d) with (RtoC (IZR v)) end; rewrite ?RtoC_m1.
Lemma eps3_ip x a b c : ip x (eps3 a b c) = - volume x a b c.
Proof. unfold ip, eps3, sum4, sgn. lc. unfold volume, det3.  ring. Qed.
Lemma eps4_eq a b c d : eps4 a b c d = - volume a b c d.
Proof. rewrite <- eps3_ip. unfold eps4, ip, sum4, sgn. ring. Qed.
Lemma eps3_last_eq a b c : eps3_last a b c = vsc (-(1)) (eps3 a b c).
Proof. apply vec_ext. intro i. unfold eps3_last, eps3, vsc, sum4, sgn. destruct i; lc; ring. Qed.
Lemma eps2_first_right a b v : on_right (eps2_first a b) v = eps3 v a b.
Proof. apply vec_ext. intro i. unfold on_right, eps2_first, eps3, ip, sum4, sgn. destruct i; lc; ring. Qed.
Lemma eps2_outer_right a b v : on_right (eps2_outer a b) v = eps3 a b v.
Proof. apply vec_ext. intro i. unfold on_right, eps2_outer, eps3, ip, sum4, sgn. destruct i; lc; ring. Qed.
Lemma eps2_first_anti a b i j : eps2_first a b j i = - eps2_first a b i j.
Proof. unfold eps2_first, sum4, sgn. destruct i, j; lc; ring. Qed.
Lemma volume_12 a b c : volume a a b c = 0. Proof. unfold volume, det3. ring. Qed.
Lemma volume_13 a b c : volume a b a c = 0. Proof. unfold volume, det3. ring. Qed.
Lemma volume_14 a b c : volume a b c a = 0. Proof. unfold volume, det3. ring. Qed.
Lemma volume_23 a b c : volume c a a b = 0. Proof. unfold volume, det3. ring. Qed.
Lemma volume_24 a b c : volume c a b a = 0. Proof. unfold volume, det3. ring. Qed.
Lemma volume_34 a b c : volume c b a a = 0. Proof. unfold volume, det3. ring. Qed.

(** ** Lorentz maps *)
Lemma app_add A a b : app A (vadd a b) = vadd (app A a) (app A b). Proof. apply vec_ext. intro i. unfold app, vadd. ring. Qed.
Lemma app_sc A x a : app A (vsc x a) = vsc x (app A a). Proof. apply vec_ext. intro i. unfold app, vsc. ring. Qed.
Section Lorentz.
  Variables (A B : ten) (s : C).
  Hypothesis L : lorentz A B s.
  Lemma L_ip a b : ip (app A a) (app A b) = ip a b. Proof. apply L. Qed.
  Lemma L_AB v : app A (app B v) = v. Proof. apply L. Qed.
  Lemma L_vol a b c d : volume (app A a) (app A b) (app A c) (app A d) = s * volume a b c d. Proof. apply L. Qed.
  Lemma L_adj a b : ip (app A a) b = ip a (app B b). Proof. rewrite <- (L_AB b) at 1. apply L_ip. Qed.
  Lemma L_BA v : app B (app A v) = v.
  Proof. apply ip_inj. intro w. now rewrite <- L_adj, L_ip. Qed.
  (** The images of all vectors are all vectors. *)
  Lemma L_ip_inj a b : (forall v, ip (app A v) a = ip (app A v) b) -> a = b.
  Proof. intro H. apply ip_inj. intro v. rewrite <- (L_AB v). apply H. Qed.
  Lemma L_right T v : on_right (tapp A T) (app A v) = app A (on_right T v).
  Proof.
    apply vec_ext. intro i. unfold on_right at 1.
    replace (tapp A T i) with (app A (fun l => app A (fun k => T k l) i)) by (apply vec_ext; intro j; unfold tapp, app; ring).
    rewrite L_ip. unfold on_right, app, ip. ring.
  Qed.
  Lemma tapp_flip T i j : tapp A T i j = tapp A (fun a b => T b a) j i. Proof. unfold tapp, app. ring. Qed.
  Lemma L_left T v : on_left (app A v) (tapp A T) = app A (on_left v T).
  Proof.
    rewrite !on_left_flip, <- L_right. f_equal. apply ten_ext. intros i j. apply tapp_flip.
  Qed.
  Lemma L_ten_inj T U : (forall v, on_right T (app A v) = on_right U (app A v)) -> T = U.
  Proof. intro H. apply on_right_inj. intro v. rewrite <- (L_AB v). apply H. Qed.
  Lemma L_prod T U : prod2 (tapp A T) (tapp A U) = tapp A (prod2 T U).
  Proof. apply L_ten_inj. intro v. now rewrite on_right_prod, !L_right, on_right_prod. Qed.
  Lemma L_eps3 a b c : eps3 (app A a) (app A b) (app A c) = vsc s (app A (eps3 a b c)).
  Proof. apply L_ip_inj. intro v. rewrite eps3_ip, L_vol, ip_sc_r, L_ip, eps3_ip. ring. Qed.
  Lemma on_right_sc x T v : on_right (tsc x T) v = vsc x (on_right T v).
  Proof. apply vec_ext. intro i. unfold on_right, tsc, vsc, ip. ring. Qed.
  Lemma L_eps2_first a b : eps2_first (app A a) (app A b) = tsc s (tapp A (eps2_first a b)).
  Proof. apply L_ten_inj. intro v. now rewrite eps2_first_right, L_eps3, on_right_sc, L_right, eps2_first_right. Qed.
  Lemma L_eps2_outer a b : eps2_outer (app A a) (app A b) = tsc s (tapp A (eps2_outer a b)).
  Proof. apply L_ten_inj. intro v. now rewrite eps2_outer_right, L_eps3, on_right_sc, L_right, eps2_outer_right. Qed.
  Lemma pair2_outer T a b : pair2 T (fun i j => a i * b j) = ip a (on_right T b).
  Proof. unfold pair2, on_right, ip. ring. Qed.
  Lemma L_pair2 T U : pair2 (tapp A T) (tapp A U) = pair2 T U.
  Proof.
    set (col := fun l : ix => (fun k => U k l) : vec).
    assert (E : U = tadd (tadd (fun i j => col I0 i * unit_ I0 j) (fun i j => col I1 i * unit_ I1 j)) (tadd (fun i j => col I2 i * unit_ I2 j) (fun i j => col I3 i * unit_ I3 j))).
    { apply ten_ext. intros i j. unfold tadd, col, unit_, Identity. destruct j; ring. }
    assert (Ad : forall T U W, pair2 T (tadd U W) = pair2 T U + pair2 T W) by (intros; unfold pair2, tadd, ip; ring).
    assert (Ta : forall U W, tapp A (tadd U W) = tadd (tapp A U) (tapp A W)) by (intros; apply ten_ext; intros; unfold tapp, tadd, app; ring).
    assert (To : forall a b, tapp A (fun i j => a i * b j) = (fun i j => app A a i * app A b j)) by (intros; apply ten_ext; intros; unfold tapp, app; ring).
    rewrite E. rewrite !Ta, !To, !Ad, !pair2_outer, !L_right, !L_ip. reflexivity.
  Qed.
End Lorentz.
