(** Boosts, rotations and the reflection of space, with the matrices that stand for them. *)
From Verif.Common Require Import Prelude.
From Coq Require Import Reals Lra Field FunctionalExtensionality.
From Coquelicot Require Import Hierarchy Complex.
From Verif.Vertex Require Import Model Spec Algebra OrbitalProofs DiracProofs.
Local Open Scope C_scope.

(** The map of the plane of the coordinates i and j. *)
Definition same (i j : ix) : bool := match i, j with I0, I0 | I1, I1 | I2, I2 | I3, I3 => true | _, _ => false end.
Definition plane (i j : ix) (a b c d : C) : ten := fun m n =>
  if same m i then if same n i then a else if same n j then b else 0
  else if same m j then if same n i then c else if same n j then d else 0
  else Identity m n.
(** A boost along z by twice the rapidity whose cosh and sinh are c and h. *)
Definition boost_z (c h : C) : ten := plane I2 I3 (c * c + h * h) (c * h + c * h) (c * h + c * h) (c * c + h * h).
Definition boost_spinor (c h : C) : ten := madd (msc c Identity) (msc h (mm (Gamma I3) (Gamma I2))).
(** Rotations about z and y by twice the angle whose cos and sin are c and s. *)
Definition rot_z (c s : C) : ten := plane I0 I1 (c * c - s * s) (- (c * s + c * s)) (c * s + c * s) (c * c - s * s).
Definition rot_z_spinor (c s : C) : ten := madd (msc c Identity) (msc s (mm (Gamma I0) (Gamma I1))).
Definition rot_y (c s : C) : ten := plane I2 I0 (c * c - s * s) (- (c * s + c * s)) (c * s + c * s) (c * c - s * s).
Definition rot_y_spinor (c s : C) : ten := madd (msc c Identity) (msc s (mm (Gamma I2) (Gamma I0))).
Definition reflection : ten := fun i j => match i, j with I0, I0 | I1, I1 | I2, I2 => - (1) | I3, I3 => 1 | _, _ => 0 end.

Ltac entries := unfold boost_spinor, rot_z_spinor, rot_y_spinor, reflection, boost_z, rot_z, rot_y, plane, same, madd, msc, mm, mv, app, Identity, Gamma, Gamma5, sum4, square; cbn [nth].

Lemma boost_lorentz c h : c * c = 1 + h * h -> lorentz (boost_z c h) (boost_z c (- h)) 1.
Proof.
  intro E. assert (E4 : (c * c + h * h) * (c * c + h * h) = 1 + (c * h + c * h) * (c * h + c * h)) by (ring [E]).
  unfold boost_z. replace (c * - h + c * - h) with (- (c * h + c * h)) by ring. replace (c * c + - h * - h) with (c * c + h * h) by ring.
  set (C_ := c * c + h * h) in *. set (S_ := c * h + c * h) in *. clearbody C_ S_. split; [|split]; intros.
  - unfold ip, app, plane, same, Identity. ring [E4].
  - apply vec_ext. intros []; unfold app, plane, same, Identity; ring [E4].
  - unfold volume, det3, app, plane, same, Identity. ring [E4].
Qed.
Lemma rot_z_lorentz c s : c * c = 1 - s * s -> lorentz (rot_z c s) (rot_z c (- s)) 1.
Proof.
  intro E. assert (E4 : (c * c - s * s) * (c * c - s * s) = 1 - (c * s + c * s) * (c * s + c * s)) by (ring [E]).
  unfold rot_z. replace (c * - s + c * - s) with (- (c * s + c * s)) by ring. replace (c * c - - s * - s) with (c * c - s * s) by ring.
  set (C_ := c * c - s * s) in *. set (S_ := c * s + c * s) in *. clearbody C_ S_. split; [|split]; intros.
  - unfold ip, app, plane, same, Identity. ring [E4].
  - apply vec_ext. intros []; unfold app, plane, same, Identity; ring [E4].
  - unfold volume, det3, app, plane, same, Identity. ring [E4].
Qed.
Lemma rot_y_lorentz c s : c * c = 1 - s * s -> lorentz (rot_y c s) (rot_y c (- s)) 1.
Proof.
  intro E. assert (E4 : (c * c - s * s) * (c * c - s * s) = 1 - (c * s + c * s) * (c * s + c * s)) by (ring [E]).
  unfold rot_y. replace (c * - s + c * - s) with (- (c * s + c * s)) by ring. replace (c * c - - s * - s) with (c * c - s * s) by ring.
  set (C_ := c * c - s * s) in *. set (S_ := c * s + c * s) in *. clearbody C_ S_. split; [|split]; intros.
  - unfold ip, app, plane, same, Identity. ring [E4].
  - apply vec_ext. intros []; unfold app, plane, same, Identity; ring [E4].
  - unfold volume, det3, app, plane, same, Identity. ring [E4].
Qed.
Lemma reflection_lorentz : lorentz reflection reflection (-(1)).
Proof.
  split; [|split]; intros.
  - unfold ip, app, reflection. ring.
  - apply vec_ext. intros []; unfold app, reflection; ring.
  - unfold volume, det3, app, reflection. ring.
Qed.
(** The entries of the matrices *)
Lemma boost_entries c h : boost_spinor c h = square (c :: RtoC 0 :: h :: RtoC 0 :: RtoC 0 :: c :: RtoC 0 :: - h :: h :: RtoC 0 :: c :: RtoC 0 :: RtoC 0 :: - h :: RtoC 0 :: c :: nil).
Proof. apply ten_ext. intros [] []; entries; ring. Qed.
Lemma rot_z_entries c s : rot_z_spinor c s = square (c - Ci * s :: RtoC 0 :: RtoC 0 :: RtoC 0 :: RtoC 0 :: c + Ci * s :: RtoC 0 :: RtoC 0 :: RtoC 0 :: RtoC 0 :: c - Ci * s :: RtoC 0 :: RtoC 0 :: RtoC 0 :: RtoC 0 :: c + Ci * s :: nil).
Proof. apply ten_ext. intros [] []; entries; ring. Qed.
Lemma rot_y_entries c s : rot_y_spinor c s = square (c :: - s :: RtoC 0 :: RtoC 0 :: s :: c :: RtoC 0 :: RtoC 0 :: RtoC 0 :: RtoC 0 :: c :: - s :: RtoC 0 :: RtoC 0 :: s :: c :: nil).
Proof. apply ten_ext. intros [] []; entries; ring. Qed.
Ltac mat E := apply ten_ext; intros [] []; unfold mm, msc, sum4, Identity, Gamma5, square; cbn [nth]; ring [E ii].
Ltac slashes E := intro p; rewrite !slash_entries; unfold app; apply ten_ext; intros [] []; unfold mm, sum4, square, boost_z, rot_z, rot_y, plane, same, Identity; cbn [nth]; ring [E ii].
Lemma boost_stands c h : c * c = 1 + h * h -> stands (boost_spinor c h) (boost_spinor c (- h)) (boost_z c h) 1.
Proof. intro E. rewrite !boost_entries. split; [mat E|]. split; [mat E|]. split; [slashes E|mat E]. Qed.
Lemma rot_z_stands c s : c * c = 1 - s * s -> stands (rot_z_spinor c s) (rot_z_spinor c (- s)) (rot_z c s) 1.
Proof. intro E. rewrite !rot_z_entries. split; [mat E|]. split; [mat E|]. split; [slashes E|mat E]. Qed.
Lemma rot_y_stands c s : c * c = 1 - s * s -> stands (rot_y_spinor c s) (rot_y_spinor c (- s)) (rot_y c s) 1.
Proof. intro E. rewrite !rot_y_entries. split; [mat E|]. split; [mat E|]. split; [slashes E|mat E]. Qed.
Lemma reflection_stands : stands (Gamma I3) (Gamma I3) reflection (-(1)).
Proof.
  split; [|split; [|split]].
  1, 2, 4: apply ten_ext; intros [] []; unfold mm, msc, sum4, Identity, Gamma5, Gamma, square; cbn [nth]; ring.
  intro p. rewrite !slash_entries. unfold app. apply ten_ext; intros [] []; unfold mm, sum4, square, Gamma, square, reflection; cbn [nth]; ring.
Qed.
(** The product of bispinors *)
Lemma Cplus_conj x y : Cconj (x + y) = Cconj x + Cconj y. Proof. unfold Cconj, Cplus. cbn. f_equal. ring. Qed.
Lemma Cmult_conj x y : Cconj (x * y) = Cconj x * Cconj y. Proof. unfold Cconj, Cmult. cbn. f_equal; ring. Qed.
Lemma Copp_conj x : Cconj (- x) = - Cconj x. Proof. reflexivity. Qed.
Lemma bar_of U U' : mm (fun a b => Cconj (U b a)) (Gamma I3) = mm (Gamma I3) U' -> keeps_bar U U'.
Proof.
  intros E v. apply vec_ext. intro a.
  transitivity (sum4 (fun b => Cconj (v b) * mm (fun a b => Cconj (U b a)) (Gamma I3) b a)).
  - unfold Bar, mv, mm, sum4. rewrite !Cplus_conj, !Cmult_conj. ring.
  - rewrite E. unfold Bar, mm, sum4. ring.
Qed.
Lemma Cconj_R x : Cconj (RtoC x) = RtoC x. Proof. unfold Cconj, RtoC. cbn. f_equal. ring. Qed.
Lemma Cconj_Ci : Cconj Ci = - Ci. Proof. unfold Cconj, Ci, Copp. cbn. f_equal; ring. Qed.
Lemma Cconj_m x y : Cconj (x - y) = Cconj x - Cconj y. Proof. unfold Cminus. now rewrite Cplus_conj, Copp_conj. Qed.
Ltac bars := apply bar_of, ten_ext; intros [] []; unfold mm, sum4, Gamma, square; cbn [nth]; rewrite ?Cplus_conj, ?Cconj_m, ?Copp_conj, ?Cmult_conj, ?Cconj_R, ?Cconj_Ci; ring.
Lemma boost_bar (c h : R) : keeps_bar (boost_spinor c h) (boost_spinor c (- RtoC h)). Proof. rewrite !boost_entries. bars. Qed.
Lemma rot_z_bar (c s : R) : keeps_bar (rot_z_spinor c s) (rot_z_spinor c (- RtoC s)). Proof. rewrite !rot_z_entries. bars. Qed.
Lemma rot_y_bar (c s : R) : keeps_bar (rot_y_spinor c s) (rot_y_spinor c (- RtoC s)). Proof. rewrite !rot_y_entries. bars. Qed.
Lemma reflection_bar : keeps_bar (Gamma I3) (Gamma I3). Proof. bars. Qed.
(** One after the other *)
Lemma app_mm A1 A2 v : app (mm A1 A2) v = app A1 (app A2 v). Proof. apply vec_ext. intro. unfold app, mm, sum4. ring. Qed.
Lemma lorentz_mm A1 B1 s1 A2 B2 s2 : lorentz A1 B1 s1 -> lorentz A2 B2 s2 -> lorentz (mm A1 A2) (mm B2 B1) (s1 * s2).
Proof.
  intros (a1 & b1 & c1) (a2 & b2 & c2). split; [|split]; intros; rewrite !app_mm.
  - now rewrite a1, a2.
  - now rewrite b2, b1.
  - rewrite c1, c2. ring.
Qed.
Lemma stands_mm U1 V1 A1 s1 U2 V2 A2 s2 : stands U1 V1 A1 s1 -> stands U2 V2 A2 s2 -> stands (mm U1 U2) (mm V2 V1) (mm A1 A2) (s1 * s2).
Proof.
  intros (a1 & b1 & c1 & d1) (a2 & b2 & c2 & d2). split; [|split; [|split]]; intros.
  - rewrite mm_assoc, <- (mm_assoc U2), a2, mm_id_l. exact a1.
  - rewrite mm_assoc, <- (mm_assoc V1), b1, mm_id_l. exact b2.
  - replace (app (mm A1 A2) p) with (app A1 (app A2 p)) by (symmetry; apply app_mm). rewrite <- c1, <- c2, !mm_assoc. reflexivity.
  - rewrite mm_assoc, d2, mm_sc_r, <- mm_assoc, d1, mm_sc_l, mm_assoc. apply ten_ext. intros. unfold msc. ring.
Qed.
Lemma bar_mm U1 V1 U2 V2 : keeps_bar U1 V1 -> keeps_bar U2 V2 -> keeps_bar (mm U1 U2) (mm V2 V1).
Proof. intros a b v. rewrite mv_mm, a, b. apply vec_ext. intro. unfold mm, sum4. ring. Qed.
