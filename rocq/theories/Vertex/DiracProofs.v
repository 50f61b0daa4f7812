From Verif.Common Require Import Prelude.
From Coq Require Import Reals Lra Field FunctionalExtensionality.
From Coquelicot Require Import Hierarchy Complex.
From Verif.Vertex Require Import Model Spec Algebra OrbitalProofs.
Local Open Scope C_scope.

Lemma ii : Ci * Ci = - RtoC 1. Proof. unfold Ci, RtoC, Copp, Cmult. cbn. f_equal; ring. Qed.
(** ** Matrices *)
Lemma mm_assoc A B D : mm (mm A B) D = mm A (mm B D). Proof. apply ten_ext. intros. unfold mm, sum4. ring. Qed.
Lemma mm_id_l A : mm Identity A = A. Proof. apply ten_ext. intros i j. unfold mm, sum4, Identity. destruct i; ring. Qed.
Lemma mm_id_r A : mm A Identity = A. Proof. apply ten_ext. intros i j. unfold mm, sum4, Identity. destruct j; ring. Qed.
Lemma mm_add_l A B D : mm (madd A B) D = madd (mm A D) (mm B D). Proof. apply ten_ext. intros. unfold mm, madd, sum4. ring. Qed.
Lemma mm_add_r A B D : mm D (madd A B) = madd (mm D A) (mm D B). Proof. apply ten_ext. intros. unfold mm, madd, sum4. ring. Qed.
Lemma mm_sc_l x A D : mm (msc x A) D = msc x (mm A D). Proof. apply ten_ext. intros. unfold mm, msc, sum4. ring. Qed.
Lemma mm_sc_r x A D : mm D (msc x A) = msc x (mm D A). Proof. apply ten_ext. intros. unfold mm, msc, sum4. ring. Qed.
Lemma mv_mm A B v : mv (mm A B) v = mv A (mv B v). Proof. apply vec_ext. intro. unfold mv, mm, sum4. ring. Qed.
Lemma mv_id v : mv Identity v = v. Proof. apply vec_ext. intro i. unfold mv, sum4, Identity. destruct i; ring. Qed.
Lemma mv_madd A B v : mv (madd A B) v = vadd (mv A v) (mv B v). Proof. apply vec_ext. intro. unfold mv, madd, vadd, sum4. ring. Qed.
Lemma mv_msc x A v : mv (msc x A) v = vsc x (mv A v). Proof. apply vec_ext. intro. unfold mv, msc, vsc, sum4. ring. Qed.
Lemma mv_vadd A a b : mv A (vadd a b) = vadd (mv A a) (mv A b). Proof. apply vec_ext. intro. unfold mv, vadd, sum4. ring. Qed.
Lemma mv_vsc A x a : mv A (vsc x a) = vsc x (mv A a). Proof. apply vec_ext. intro. unfold mv, vsc, sum4. ring. Qed.
Lemma mv_sum A (f : ix -> vec) : mv A (fun a => sum4 (fun m => f m a)) = (fun a => sum4 (fun m => mv A (f m) a)).
Proof. apply vec_ext. intro. unfold mv, sum4. ring. Qed.

(** ** The matrix of a vector *)
Lemma slash_entries p : slash p = square (p I3 :: RtoC 0 :: - p I2 :: (- p I0 + Ci * p I1) :: RtoC 0 :: p I3 :: (- p I0 - Ci * p I1) :: p I2 ::
   p I2 :: (p I0 - Ci * p I1) :: - p I3 :: RtoC 0 :: (p I0 + Ci * p I1) :: - p I2 :: RtoC 0 :: - p I3 :: nil).
Proof. apply ten_ext. intros i j. unfold slash, Gamma4Vec, sum4, sgn. destruct i, j; cbn [Gamma square nth]; ring. Qed.
Lemma slash_add p q : slash (vadd p q) = madd (slash p) (slash q). Proof. apply ten_ext. intros. unfold slash, vadd, madd, sum4. ring. Qed.
Lemma slash_sc x p : slash (vsc x p) = msc x (slash p). Proof. apply ten_ext. intros. unfold slash, vsc, msc, sum4. ring. Qed.
Lemma clifford p q : madd (mm (slash p) (slash q)) (mm (slash q) (slash p)) = msc (RtoC 2 * ip p q) Identity.
Proof.
  rewrite !slash_entries, C2. unfold ip. generalize (p I0), (p I1), (p I2), (p I3), (q I0), (q I1), (q I2), (q I3). intros.
  apply ten_ext. intros i j. unfold madd, mm, msc, sum4, Identity. destruct i, j; cbn [square nth]; ring [ii].
Qed.
Lemma slash_sq p : mm (slash p) (slash p) = msc (ip p p) Identity.
Proof.
  rewrite !slash_entries. unfold ip. generalize (p I0), (p I1), (p I2), (p I3). intros.
  apply ten_ext. intros i j. unfold mm, msc, sum4, Identity. destruct i, j; cbn [square nth]; ring [ii].
Qed.
Lemma anti p q : ip p q = 0 -> mm (slash p) (slash q) = msc (-(1)) (mm (slash q) (slash p)).
Proof.
  intro H. pose proof (clifford p q) as K. rewrite H in K. apply ten_ext. intros i j.
  apply (f_equal (fun f => f i j)) in K. unfold madd, msc in *. transitivity (mm (slash p) (slash q) i j + mm (slash q) (slash p) i j - mm (slash q) (slash p) i j); [ring|].
  rewrite K. ring.
Qed.
Lemma g5_sq : mm Gamma5 Gamma5 = Identity.
Proof. apply ten_ext. intros i j. unfold mm, sum4, Identity, Gamma5. destruct i, j; cbn [square nth]; ring. Qed.
Lemma g5_slash p : mm Gamma5 (slash p) = msc (-(1)) (mm (slash p) Gamma5).
Proof.
  rewrite slash_entries. apply ten_ext. intros i j. unfold mm, msc, sum4, Gamma5. destruct i, j; cbn [square nth]; ring.
Qed.
Lemma gt_slash_eq P v : gt_slash P v = slash (Orbital_PWave P v).
Proof.
  apply ten_ext. intros i j. unfold gt_slash, gamma_twiddle, slash, Orbital_PWave. rewrite !dot_ip. unfold Gamma4Vec.
  set (g := fun m => Gamma m i j). change (Gamma I0 i j) with (g I0).
  assert (E : forall m, Gamma m i j = g m) by reflexivity. unfold sum4 at 1 3. rewrite !E. unfold sum4. rewrite !E. clearbody g.
  unfold Cdiv. set (w := / ip P P). clearbody w. unfold ip, sgn. ring.
Qed.
Lemma gt_eq P n : gamma_twiddle P n = madd (Gamma n) (msc (- (P n / ip P P)) (slash P)).
Proof.
  apply ten_ext. intros i j. unfold gamma_twiddle, madd, msc, slash. rewrite dot_ip. unfold Gamma4Vec, sum4, Cdiv. ring.
Qed.
Lemma gamma_slash n : Gamma n = slash (vsc (sgn n) (unit_ n)).
Proof. apply ten_ext. intros i j. unfold slash, Gamma4Vec, sum4, vsc, unit_, Identity, sgn. destruct n; ring. Qed.
Lemma gt_unit P n : gamma_twiddle P n = slash (Orbital_PWave P (vsc (sgn n) (unit_ n))).
Proof.
  rewrite gt_eq, pwave_eq, slash_add, <- gamma_slash, slash_sc. f_equal. f_equal.
  rewrite ip_sc_r, (ip_sym P (unit_ n)), ip_unit, Cmult_assoc, sgn2. unfold Cdiv. ring.
Qed.

(** ** Sums over the index of vectors, of bispinors and of matrices *)
Definition gsum (f : ix -> vec) : vec := fun a => ip (fun _ => 1) (fun m => f m a).
Lemma gsum_add f g : gsum (fun m => vadd (f m) (g m)) = vadd (gsum f) (gsum g). Proof. apply vec_ext. intro. unfold gsum, vadd, ip. ring. Qed.
Lemma gsum_sc x f : gsum (fun m => vsc x (f m)) = vsc x (gsum f). Proof. apply vec_ext. intro. unfold gsum, vsc, ip. ring. Qed.
Lemma gsum_mv A f : gsum (fun m => mv A (f m)) = mv A (gsum f). Proof. apply vec_ext. intro. unfold gsum, mv, sum4, ip. ring. Qed.
Lemma gsum_ext f g : (forall m, f m = g m) -> gsum f = gsum g. Proof. intro H. apply vec_ext. intro a. unfold gsum. f_equal. apply vec_ext. intro. now rewrite H. Qed.
(** A number for each index times one bispinor; a matrix for each times one bispinor. *)
Lemma gsum_gamma_vec v w : gsum (fun m => vsc (v m) (mv (Gamma m) w)) = mv (slash v) w.
Proof. apply vec_ext. intro a. unfold gsum, vsc, mv, slash, Gamma4Vec, sum4, ip, sgn. ring. Qed.
Definition msum (F : ix -> ten) : ten := fun a b => ip (fun _ => 1) (fun m => F m a b).
Lemma gsum_msum F w : gsum (fun m => mv (F m) w) = mv (msum F) w. Proof. apply vec_ext. intro a. unfold gsum, msum, mv, sum4, ip. ring. Qed.
Lemma msum_add F G : msum (fun m => madd (F m) (G m)) = madd (msum F) (msum G). Proof. apply ten_ext. intros. unfold msum, madd, ip. ring. Qed.
Lemma msum_sc x F : msum (fun m => msc x (F m)) = msc x (msum F). Proof. apply ten_ext. intros. unfold msum, msc, ip. ring. Qed.
Lemma msum_mm_r F A : msum (fun m => mm (F m) A) = mm (msum F) A. Proof. apply ten_ext. intros. unfold msum, mm, sum4, ip. ring. Qed.
Lemma msum_mm_l F A : msum (fun m => mm A (F m)) = mm A (msum F). Proof. apply ten_ext. intros. unfold msum, mm, sum4, ip. ring. Qed.
Lemma msum_vec v : msum (fun m => msc (v m) (Gamma m)) = slash v. Proof. apply ten_ext. intros. unfold msum, msc, slash, Gamma4Vec, sum4, ip, sgn. ring. Qed.
Lemma msum_ext F G : (forall m, F m = G m) -> msum F = msum G. Proof. intro H. apply ten_ext. intros. unfold msum. f_equal. apply vec_ext. intro. now rewrite H. Qed.
Lemma C4 : RtoC 4 = 1 + 1 + 1 + 1. Proof. rewrite <- !RtoC_plus; f_equal; ring. Qed.
Lemma gamma_sq m : mm (Gamma m) (Gamma m) = msc (sgn m) Identity.
Proof. rewrite gamma_slash, slash_sq, ip_sc_l, ip_sc_r, ip_unit. f_equal. unfold unit_, Identity, sgn. destruct m; ring. Qed.
Lemma gamma_gamma : msum (fun m => mm (Gamma m) (Gamma m)) = msc 4 Identity.
Proof. apply ten_ext. intros i j. unfold msum. rewrite !(functional_extensionality _ _ (fun m => f_equal (fun f => f i j) (gamma_sq m))). unfold ip, msc, sgn. rewrite C4. ring. Qed.
Lemma gamma_slash_gamma p : msum (fun m => mm (mm (Gamma m) (slash p)) (Gamma m)) = msc (- RtoC 2) (slash p).
Proof.
  rewrite (msum_ext _ (fun m => madd (msc (RtoC 2) (msc (p m) (Gamma m))) (mm (msc (-(1)) (slash p)) (mm (Gamma m) (Gamma m))))).
  - rewrite msum_add, msum_sc, msum_vec, msum_mm_l, gamma_gamma, mm_sc_r, mm_id_r. apply ten_ext. intros i j. unfold madd, msc. rewrite C2, C4. ring.
  - intro m. pose proof (clifford (vsc (sgn m) (unit_ m)) p) as K. rewrite <- gamma_slash, ip_sc_l, ip_unit in K.
    replace (RtoC 2 * (sgn m * (sgn m * p m))) with (RtoC 2 * p m) in K by (transitivity (RtoC 2 * p m * (sgn m * sgn m)); [rewrite sgn2|]; ring).
    assert (E : mm (Gamma m) (slash p) = madd (msc (RtoC 2 * p m) Identity) (msc (-(1)) (mm (slash p) (Gamma m)))).
    { rewrite <- K. apply ten_ext. intros i j. unfold madd, msc. ring. }
    rewrite E, mm_add_l, !mm_sc_l, mm_id_l, mm_assoc. apply ten_ext. intros i j. unfold madd, msc. ring.
Qed.
