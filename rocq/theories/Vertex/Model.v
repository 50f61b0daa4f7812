(** Model of the spin tensors of src/Vertex.cpp and src/FermionVertices.cpp, with the matrices of src/DiracMatrices.cpp.

    Expressions are represented by the complex numbers they evaluate to; a tensor of rank n with all dimensions 4 by a
    function of n indices. A product of tensors with named indices is written as the sum over the repeated indices which
    the tensor product performs (src/Tensor.cpp:377-453; that it does is C27): an index that appears once raised and once
    lowered carries the sign of src/Tensor.cpp:442, which is + for index 3 and - for the others, an index that appears
    twice in the same position carries none, and lowering an index that stays free has no effect.
    Not represented: [make_cse], [st] (names for subexpressions), [imposeSymmetry] (removes entries that are equal by
    symmetry), debugging output, and the shape of the result of vertices that return one number. *)
From Verif.Common Require Import Prelude.
From Coq Require Import Reals.
From Coquelicot Require Import Hierarchy Complex.
From Verif.Tensor Require Model.
Local Open Scope C_scope.

(** The four values of an index, in order: x, y, z and the energy for vectors; the components of bispinors. *)
Inductive ix := I0 | I1 | I2 | I3.
Definition vec := ix -> C.
Definition ten := ix -> ix -> C.
Definition num (i : ix) : Z := match i with I0 => 0 | I1 => 1 | I2 => 2 | I3 => 3 end.
(** src/Tensor.cpp:440-445: the sum over one contracted index, and the sign of a raised index against a lowered one. *)
Definition sum4 (f : ix -> C) : C := f I0 + f I1 + f I2 + f I3.
Definition sgn (i : ix) : C := match i with I3 => 1 | _ => - (1) end.
(** src/Tensor.cpp:242-259 for rank 1 and rank 2, with the signs of src/Tensor.cpp:64-70. *)
Definition dot (A B : vec) : C := sum4 (fun i => sgn i * A i * B i).
Definition dot2 (A B : ten) : C := sum4 (fun i => sum4 (fun j => sgn i * sgn j * A i j * B i j)).
(** src/Tensor.cpp:602-624 for rank 4: the product of the differences of the indices over that of (0,1,2,3); entries with
    a repeated index, which the code leaves at 0, have a vanishing product. *)
Definition permutation_sign (i j k l : ix) : Z :=
  ((num i - num j) * (num i - num k) * (num i - num l) * (num j - num k) * (num j - num l) * (num k - num l))%Z.
Definition LeviCivita (i j k l : ix) : C := RtoC (IZR (Z.quot (permutation_sign i j k l) (permutation_sign I0 I1 I2 I3))).
(** LeviCivita()(-mu,-nu,-alpha,-beta) * a(nu) * b(alpha) * c(beta). *)
Definition eps3 (a b c : vec) : vec := fun m =>
  sum4 (fun n => sum4 (fun k => sum4 (fun l => sgn n * sgn k * sgn l * LeviCivita m n k l * a n * b k * c l))).
(** The same with the last index, with the last two, and with none left free. *)
Definition eps3_last (a b c : vec) : vec := fun l =>
  sum4 (fun m => sum4 (fun n => sum4 (fun k => sgn m * sgn n * sgn k * LeviCivita m n k l * a m * b n * c k))).
Definition eps2_first (a b : vec) : ten := fun m n =>
  sum4 (fun k => sum4 (fun l => sgn k * sgn l * LeviCivita m n k l * a k * b l)).
Definition eps2_outer (a b : vec) : ten := fun m l =>
  sum4 (fun n => sum4 (fun k => sgn n * sgn k * LeviCivita m n k l * a n * b k)).
Definition eps4 (a b c d : vec) : C := sum4 (fun m => sgn m * a m * eps3 b c d m).

(** ** src/Vertex.cpp *)
(** 63-65 *)
Definition Metric4x4 : ten := fun i j =>
  match i, j with I0, I0 | I1, I1 | I2, I2 => - (1) | I3, I3 => 1 | _, _ => 0 end.
(** 67-71 *)
Definition Orbital_PWave (p q : vec) : vec := fun i => q i - p i * (dot p q * (1 / dot p p)).
(** 83-87 *)
Definition Spin1Projector (P : vec) : ten := fun i j => Metric4x4 i j - P i * P j * (1 / dot P P).
(** 74-81 *)
Definition Orbital_DWave (p q : vec) : ten := fun i j =>
  let L := Orbital_PWave p q in L i * L j - dot L L / 3 * Spin1Projector p i j.
(** 89-94 *)
Definition Spin2Projector (P : vec) : ix -> ix -> ix -> ix -> C := fun m n a b =>
  let S := Spin1Projector P in
  - (1 / 3) * S m n * S a b + 1 / 2 * (S m a * S n b + S m b * S n a).
Local Notation c0 := (RtoC 0).
Local Notation c1 := (RtoC 1).
Local Notation m1 := (- RtoC 1).
(** src/DiracMatrices.cpp:14-19 *)
Definition square (l : list C) : ten := fun i j =>
  match i with
  | I0 => match j with I0 => nth 0 l c0 | I1 => nth 1 l c0 | I2 => nth 2 l c0 | I3 => nth 3 l c0 end
  | I1 => match j with I0 => nth 4 l c0 | I1 => nth 5 l c0 | I2 => nth 6 l c0 | I3 => nth 7 l c0 end
  | I2 => match j with I0 => nth 8 l c0 | I1 => nth 9 l c0 | I2 => nth 10 l c0 | I3 => nth 11 l c0 end
  | I3 => match j with I0 => nth 12 l c0 | I1 => nth 13 l c0 | I2 => nth 14 l c0 | I3 => nth 15 l c0 end
  end.
Definition Gamma (i : ix) : ten :=
  match i with
  | I0 => square [c0; c0; c0; c1;  c0; c0; c1; c0;  c0; m1; c0; c0;  m1; c0; c0; c0]
  | I1 => square [c0; c0; c0; -Ci;  c0; c0; Ci; c0;  c0; Ci; c0; c0;  -Ci; c0; c0; c0]
  | I2 => square [c0; c0; c1; c0;  c0; c0; c0; m1;  m1; c0; c0; c0;  c0; c1; c0; c0]
  | I3 => square [c1; c0; c0; c0;  c0; c1; c0; c0;  c0; c0; m1; c0;  c0; c0; c0; m1]
  end.
(** Gamma[4] *)
Definition Gamma5 : ten := square [c0; c0; c1; c0;  c0; c0; c0; c1;  c1; c0; c0; c0;  c0; c1; c0; c0].
(** src/DiracMatrices.cpp:40-43 *)
Definition SO3 (i : ix) : ten :=
  match i with
  | I0 => square [c0; c0; c0; c0;  c0; c0; m1; c0;  c0; c1; c0; c0;  c0; c0; c0; c0]
  | I1 => square [c0; c0; c1; c0;  c0; c0; c0; c0;  m1; c0; c0; c0;  c0; c0; c0; c0]
  | I2 => square [c0; m1; c0; c0;  c1; c0; c0; c0;  c0; c0; c0; c0;  c0; c0; c0; c0]
  | I3 => square []
  end.
(** The identity (src/Tensor.cpp:595-600), products of matrices and of a matrix with a bispinor. *)
Definition Identity : ten := fun i j => match i, j with I0, I0 | I1, I1 | I2, I2 | I3, I3 => 1 | _, _ => 0 end.
Definition mm (A B : ten) : ten := fun a c => sum4 (fun b => A a b * B b c).
Definition mv (A : ten) (v : vec) : vec := fun a => sum4 (fun b => A a b * v b).
Definition madd (A B : ten) : ten := fun a b => A a b + B a b.
Definition msc (x : C) (A : ten) : ten := fun a b => x * A a b.
(** 97-104: the entry at (mu, a, b) is that of the matrix number mu. *)
Definition Gamma4Vec (m : ix) : ten := Gamma m.
(** 106-113 *)
Definition slash (P : vec) : ten := fun a b => sum4 (fun m => sgn m * Gamma4Vec m a b * P m).
(** 115-119 *)
Definition gamma_twiddle (P : vec) (n : ix) : ten := fun a b =>
  Gamma4Vec n a b - sum4 (fun m => sgn m * (P n * P m) * Gamma4Vec m a b) / dot P P.
(** [fcn::sqrt( dot( P, P ) )]; used where P is real and dot(P, P) positive. *)
Definition mass (P : vec) : C := RtoC (sqrt (Re (dot P P))).
(** 121-125, 140-144 *)
Definition Spin1hProjector (P : vec) : ten := fun a b => 1 / 2 * (slash P a b / mass P + Identity a b).
Definition Spin1hbProjector (P : vec) : ten := fun a b => 1 / 2 * (- slash P a b / mass P + Identity a b).
(** 127-138, 146-157 *)
Definition spin3h (F : ten) (P : vec) : ix -> ix -> ten := fun m n a b =>
  let g := gamma_twiddle P in
  - (1) * Spin1Projector P m n * F a b + 1 / 3 * mm (mm F (g m)) (g n) a b.
Definition Spin3hProjector (P : vec) := spin3h (Spin1hProjector P) P.
Definition Spin3hbProjector (P : vec) := spin3h (Spin1hbProjector P) P.
(** 159-161 *)
Definition Bar (V : vec) : vec := fun a => sum4 (fun b => Cconj (V b) * Gamma I3 b a).

(** Contractions with one vector: T(mu,nu) * v(-nu), T(mu,nu) * v(-mu), and of two tensors A(mu,nu) * B(-nu,alpha). *)
Definition tv (T : ten) (v : vec) : vec := fun i => sum4 (fun j => sgn j * T i j * v j).
Definition vt (v : vec) (T : ten) : vec := fun j => sum4 (fun i => sgn i * v i * T i j).
Definition tt (A B : ten) : ten := fun i k => sum4 (fun j => sgn j * A i j * B j k).

(** *** Vertices of bosons. The arguments are those of the macro DEFINE_VERTEX (AmpGen/Vertex.h): P the momentum of the
    decaying particle, Q the difference of the momenta of the products, V1 and V2 their tensors; a scalar is a number. *)
(** 163 *)
Definition S_SS_S (P Q : vec) (V1 V2 : C) : C := V1 * V2.
(** 165-166 *)
Definition S_VV_S (P Q V1 V2 : vec) : C := sum4 (fun m => sgn m * V1 m * V2 m).
Definition S_VV_S1 (P Q V1 V2 : vec) : C := dot (vt V1 (Spin1Projector P)) V2.
(** 168-172 *)
Definition S_VV_D (P Q V1 V2 : vec) : C := dot (vt V1 (Orbital_DWave P Q)) V2.
(** 174-179 *)
Definition S_VV_P (P Q V1 V2 : vec) : C :=
  let L := Orbital_PWave P Q in let coupling := eps2_first L P in dot (vt V1 coupling) V2.
(** 181-186 *)
Definition S_VS_P (P Q V1 : vec) (V2 : C) : C := sum4 (fun m => sgn m * V1 m * Orbital_PWave P Q m) * V2.
(** 188 *)
Definition V_SS_P (P Q : vec) (V1 V2 : C) : vec := fun i => Orbital_PWave P Q i * V1 * V2.
(** 190-195 *)
Definition V_VS_P (P Q V1 : vec) (V2 : C) : vec :=
  let L := Orbital_PWave P Q in let coupling := eps2_first L P in fun i => tv coupling V1 i * V2.
(** 198 *)
Definition V_VS_S (P Q V1 : vec) (V2 : C) : vec := fun i => tv (Spin1Projector P) V1 i * V2.
(** 200-205 *)
Definition V_VS_D (P Q V1 : vec) (V2 : C) : vec := fun i => tv (tt (Spin1Projector P) (Orbital_DWave P Q)) V1 i * V2.
(** 207-211 *)
Definition V_VV_P (P Q V1 V2 : vec) : vec := fun i => Orbital_PWave P Q i * dot V1 V2.
(** 213-221 *)
Definition V_VV_P1 (P Q V1 V2 : vec) : vec :=
  let L := Orbital_PWave P Q in
  let term := eps3 P V1 V2 in
  let phi_1 := vt term (Spin1Projector P) in
  eps3_last P L phi_1.
(** 223-230 *)
Definition V_VV_P2 (P Q V1 V2 : vec) : vec :=
  let L := Orbital_PWave P Q in
  let phi_2 : ten := fun a b => sum4 (fun m => sum4 (fun n => sgn m * sgn n * Spin2Projector P m n a b * V1 m * V2 n)) in
  vt L phi_2.
(** 232-238 *)
Definition V_VV_S (P Q V1 V2 : vec) : vec := let term := eps3 P V1 V2 in vt term (Spin1Projector P).
(** 241-246 *)
Definition T_VS_D (P Q V1 : vec) (V2 : C) : ten :=
  let G := eps3 P Q V1 in let L := Orbital_PWave P Q in
  fun m n => - (1 / 2) * (G m * L n + L m * G n) * V2.
(** 248-254 *)
Definition T_TS_S (P Q : vec) (V1 : ten) (V2 : C) : ten :=
  let S := Spin1Projector P in
  let term1 := tt (tt S V1) S in
  fun m n => (term1 m n - S m n * dot2 V1 S / 3) * V2.
(** 256-262 *)
Definition T_VS_P (P Q V1 : vec) (V2 : C) : ten :=
  let L := Orbital_PWave P Q in let S := Spin1Projector P in let Vp := tv S V1 in
  fun a b => V2 * ((L a * Vp b + L b * Vp a) / 2 - S a b * dot L V1 / 3).
(** 264 *)
Definition T_SS_D (P Q : vec) (V1 V2 : C) : ten := fun a b => Orbital_DWave P Q a b * V1 * V2.
(** 266-270 *)
Definition S_TV_P (P Q : vec) (V1 : ten) (V2 : vec) : C := dot (vt (Orbital_PWave P Q) V1) V2.
(** 272-276 *)
Definition S_TS_D (P Q : vec) (V1 : ten) (V2 : C) : C := V2 * dot2 (Orbital_DWave P Q) V1.
(** 278-283; the indices of [term1] are alpha, nu, those of [term2] mu, nu. *)
Definition S_TV_D (P Q : vec) (V1 : ten) (V2 : vec) : C :=
  let term1 := tt V1 (Orbital_DWave P Q) in let term2 := eps2_first P V2 in dot2 term1 term2.
(** 285 *)
Definition S_TT_S (P Q : vec) (V1 V2 : ten) : C := dot2 V1 V2.
(** 287-292 *)
Definition V_TS_P (P Q : vec) (V1 : ten) (V2 : C) : vec :=
  let S := Spin1Projector P in let L := Orbital_PWave P Q in
  fun m => sum4 (fun n => sum4 (fun a => sgn n * sgn a * (S m n * L a) * V1 n a)) * V2.
(** 294-299 *)
Definition V_TS_D (P Q : vec) (V1 : ten) (V2 : C) : vec :=
  let L : vec := fun i => - (1) * Orbital_PWave P Q i in
  let coupling := eps2_outer P Q in tv (tt coupling V1) L.

(** 340-344 and the same lines of the three other vertices: [helOp(mu,nu)*V2(nu)] has both indices in the same position. *)
Definition half_sum (P Q : vec) : vec := fun i => 1 / 2 * (P i + Q i).
Definition half_diff (P Q : vec) : vec := fun i => 1 / 2 * (P i - Q i).
(** [fcn::sqrt(P2[0]*P2[0] + P2[1]*P2[1] + P2[2]*P2[2])] for a real momentum. *)
Definition modulus (p : vec) : C := RtoC (sqrt (Re (p I0 * p I0 + p I1 * p I1 + p I2 * p I2))).
Definition helOp (P2 : vec) : ten := fun i j => Ci * (SO3 I0 i j * P2 I0 + SO3 I1 i j * P2 I1 + SO3 I2 i j * P2 I2) / modulus P2.
(** 334-350 *)
Definition S_VV_rp (P Q V1 V2 : vec) : C :=
  let P1 := half_sum P Q in let P2 := half_diff P Q in
  let helOpV2 := mv (helOp P2) V2 in
  let dot1 := dot V2 V1 * dot P1 P2 in
  let dot2 := dot V2 P1 * dot V1 P2 in
  let prod := eps4 helOpV2 V1 P1 P2 in - Ci * prod + (dot1 - dot2).
(** 352-369 *)
Definition S_VV_rm (P Q V1 V2 : vec) : C :=
  let P1 := half_sum P Q in let P2 := half_diff P Q in
  let helOpV2 := mv (helOp P2) V2 in
  let dot1 := dot helOpV2 V1 * dot P1 P2 in
  let dot2 := dot helOpV2 P1 * dot V1 P2 in
  let prod := eps4 V2 V1 P1 P2 in - Ci * prod + (dot1 - dot2).
(** 372-388 *)
Definition S_TV_rp (P Q : vec) (V1 : ten) (V2 : vec) : C :=
  let P1 := half_sum P Q in let P2 := half_diff P Q in
  let helOpV2 := mv (helOp P2) V2 in
  let dot0 := dot P1 P2 in
  let res := tv V1 P1 in
  - Ci * eps4 V2 res P1 P2 + dot (vt helOpV2 (fun m n => V1 m n * dot0 - P1 m * res n)) P2.
(** 390-406 *)
Definition S_TV_rm (P Q : vec) (V1 : ten) (V2 : vec) : C :=
  let P1 := half_sum P Q in let P2 := half_diff P Q in
  let helOpV2 := mv (helOp P2) V2 in
  let dot0 := dot P1 P2 in
  let res := tv V1 P1 in
  - Ci * eps4 helOpV2 res P1 P2 + dot (vt V2 (fun m n => V1 m n * dot0 - P1 m * res n)) P2.
(** 47-61, three products with relative orbital angular momentum 1. *)
Definition getSpinFactorNBody1 (p1 p2 p3 : vec) : vec := eps3 p1 p2 p3.

(** *** Vertices of a boson to two fermions *)
(** A matrix between a bispinor on the left and one on the right. *)
Definition sandwich (u : vec) (A : ten) (v : vec) : C := sum4 (fun a => u a * mv A v a).
(** 301-303 *)
Definition S_fF_S (P Q V1 V2 : vec) : C := sum4 (fun a => Bar V2 a * V1 a).
Definition S_fF_S1 (P Q V1 V2 : vec) : C := sandwich (Bar V2) Gamma5 V1.
(** 305-312 *)
Definition V_fF_S (P Q V1 V2 : vec) : vec := fun n => sandwich (Bar V2) (gamma_twiddle P n) V1.
(** 314 *)
Definition V_fF_S1 (P Q V1 V2 : vec) : vec := fun m => sandwich (Bar V2) (mm Gamma5 (Gamma4Vec m)) V1.
(** 316-323, 325-330 *)
Definition left_handed : ten := fun a b => Identity a b - Gamma5 a b.
Definition right_handed : ten := fun a b => Identity a b + Gamma5 a b.
Definition V_fF_PL (P Q V1 V2 : vec) : vec :=
  tv (Spin1Projector P) (fun n => sandwich (Bar V1) (mm (Gamma4Vec n) left_handed) V2).
Definition V_fF_PR (P Q V1 V2 : vec) : vec :=
  tv (Spin1Projector P) (fun n => sandwich (Bar V1) (mm (Gamma4Vec n) right_handed) V2).

(** ** src/FermionVertices.cpp. [F] is the projector each vertex starts with: the definitions are shared by the two halves
    of the file (17-191 and 193-367). *)
(** gamma_twiddle(P)(mu,c,d) * v(-mu) *)
Definition gt_slash (P v : vec) : ten := fun a b => sum4 (fun m => sgn m * gamma_twiddle P m a b * v m).
Definition fS_S (F : ten) (V1 : vec) (V2 : C) : vec := fun a => mv F V1 a * V2.
Definition fS_S1 (F : ten) (V1 : vec) (V2 : C) : vec := fun a => mv (mm F Gamma5) V1 a * V2.
Definition fS_P (F : ten) (P Q V1 : vec) (V2 : C) : vec := mv (mm (mm F Gamma5) (slash (Orbital_PWave P Q))) V1.
Definition fS_P1 (F : ten) (P Q V1 : vec) (V2 : C) : vec := fun a => mv (mm F (slash (Orbital_PWave P Q))) V1 a * V2.
Definition Vf_S (F : ten) (P Q V1 V2 : vec) : vec := mv (mm (mm F Gamma5) (gt_slash P V1)) V2.
Definition Vf_S1 (F : ten) (P Q V1 V2 : vec) : vec := mv (mm F (gt_slash P V1)) V2.
Definition Vf_P (F : ten) (P Q V1 V2 : vec) : vec := fun a => mv F V2 a * dot V1 (Orbital_PWave P Q).
Definition Vf_P1 (F : ten) (P Q V1 V2 : vec) : vec :=
  let t := eps3 V1 (Orbital_PWave P Q) P in mv (mm (mm F Gamma5) (gt_slash P t)) V2.
Definition Vf_P2 (F : ten) (P Q V1 V2 : vec) : vec := fun a => mv (mm F Gamma5) V2 a * dot V1 (Orbital_PWave P Q).
Definition Vf_P3 (F : ten) (P Q V1 V2 : vec) : vec :=
  let t := eps3 (Orbital_PWave P Q) V1 P in mv (mm F (gt_slash P t)) V2.
Definition Vf_D (F : ten) (P Q V1 V2 : vec) : vec :=
  let L := tv (Orbital_DWave P Q) V1 in mv (mm (mm F Gamma5) (gt_slash P L)) V2.
Definition Vf_D1 (F : ten) (P Q V1 V2 : vec) : vec :=
  let L := tv (Orbital_DWave P Q) V1 in mv (mm F (gt_slash P L)) V2.
Definition Vf_SL (F : ten) (P Q V1 V2 : vec) : vec := mv (mm (mm F (slash V1)) left_handed) V2.
Definition Vf_SR (F : ten) (P Q V1 V2 : vec) : vec := mv (mm (mm F (slash V1)) right_handed) V2.
Definition Tf_P (F : ten) (P Q : vec) (V1 : ten) (V2 : vec) : vec :=
  mv (mm F (gt_slash P (tv V1 (Orbital_PWave P Q)))) V2.
(** A tensor with a vector and a bispinor index: V1(mu, a). *)
Definition rS_P (F : ten) (P Q : vec) (V1 : ix -> vec) (V2 : C) : vec := fun a =>
  mv F (fun b => sum4 (fun m => sgn m * V1 m b * Orbital_PWave P Q m)) a * V2.
Definition rS_P1 (F : ten) (P Q : vec) (V1 : ix -> vec) (V2 : C) : vec := fun a =>
  mv (mm F Gamma5) (fun b => sum4 (fun m => sgn m * V1 m b * Orbital_PWave P Q m)) a * V2.
Definition rS_D (F : ten) (P Q : vec) (V1 : ix -> vec) (V2 : C) : vec := fun a =>
  sum4 (fun m => sum4 (fun k =>
    sgn m * sgn k * (mv (mm (mm F Gamma5) (gamma_twiddle P m)) (V1 k) a * Orbital_DWave P Q m k))) * V2.
Definition to_r_P (F : ten) (P Q V1 : vec) (V2 : C) : ix -> vec := fun n =>
  let L := Orbital_PWave P Q in
  mv (fun a d => - (1) * L n * F a d + 1 / 3 * mm (mm F (gamma_twiddle P n)) (slash L) a d) V1.
Definition to_r_D (F : ten) (P Q V1 : vec) (V2 : C) : ix -> vec := fun m =>
  let L := Orbital_PWave P Q in let L2 := dot L L in
  mv (mm (fun a c => L m * mm F (slash L) a c - L2 / 3 * mm F (gamma_twiddle P m) a c) Gamma5) V1.
(** 17-33 *)
Definition f_fS_S (P Q : vec) := fS_S (Spin1hProjector P).
Definition f_fS_P (P Q : vec) := fS_P (Spin1hProjector P) P Q.
(** 35-63 *)
Definition f_Vf_S (P Q : vec) := Vf_S (Spin1hProjector P) P Q.
Definition f_Vf_P (P Q : vec) := Vf_P (Spin1hProjector P) P Q.
Definition f_Vf_P1 (P Q : vec) := Vf_P1 (Spin1hProjector P) P Q.
Definition f_Vf_D (P Q : vec) := Vf_D (Spin1hProjector P) P Q.
(** 65-82 *)
Definition f_Vf_S1 (P Q : vec) := Vf_S1 (Spin1hProjector P) P Q.
Definition f_Vf_SL (P Q : vec) := Vf_SL (Spin1hProjector P) P Q.
Definition f_Vf_SR (P Q : vec) := Vf_SR (Spin1hProjector P) P Q.
(** 97-135 *)
Definition f_fS_S1 (P Q : vec) := fS_S1 (Spin1hProjector P).
Definition f_fS_P1 (P Q : vec) := fS_P1 (Spin1hProjector P) P Q.
Definition f_Tf_P (P Q : vec) := Tf_P (Spin1hProjector P) P Q.
Definition f_Vf_P2 (P Q : vec) := Vf_P2 (Spin1hProjector P) P Q.
Definition f_Vf_P3 (P Q : vec) := Vf_P3 (Spin1hProjector P) P Q.
Definition f_Vf_D1 (P Q : vec) := Vf_D1 (Spin1hProjector P) P Q.
(** 138-191 *)
Definition r_fS_P (P Q : vec) := to_r_P (Spin1hProjector P) P Q.
Definition r_fS_D (P Q : vec) := to_r_D (Spin1hProjector P) P Q.
Definition f_rS_D (P Q : vec) := rS_D (Spin1hProjector P) P Q.
Definition f_rS_P (P Q : vec) := rS_P (Spin1hProjector P) P Q.
Definition f_rS_P1 (P Q : vec) := rS_P1 (Spin1hProjector P) P Q.
(** 193-209 *)
Definition F_FS_S (P Q : vec) := fS_S (Spin1hbProjector P).
Definition F_FS_P (P Q : vec) := fS_P (Spin1hbProjector P) P Q.
(** 211-258 *)
Definition F_VF_S (P Q : vec) := Vf_S (Spin1hbProjector P) P Q.
Definition F_VF_P (P Q : vec) := Vf_P (Spin1hbProjector P) P Q.
Definition F_VF_P1 (P Q : vec) := Vf_P1 (Spin1hbProjector P) P Q.
Definition F_VF_D (P Q : vec) := Vf_D (Spin1hbProjector P) P Q.
Definition F_VF_S1 (P Q : vec) := Vf_S1 (Spin1hbProjector P) P Q.
Definition F_VF_SL (P Q : vec) := Vf_SL (Spin1hbProjector P) P Q.
Definition F_VF_SR (P Q : vec) := Vf_SR (Spin1hbProjector P) P Q.
(** 273: the projector is that of the particle. *)
Definition F_FS_S1 (P Q : vec) := fS_S1 (Spin1hProjector P).
(** 275-302 *)
Definition F_FS_P1 (P Q : vec) := fS_P1 (Spin1hbProjector P) P Q.
Definition F_TF_P (P Q : vec) := Tf_P (Spin1hbProjector P) P Q.
Definition F_VF_P2 (P Q : vec) := Vf_P2 (Spin1hbProjector P) P Q.
Definition F_VF_P3 (P Q : vec) := Vf_P3 (Spin1hbProjector P) P Q.
(** 305-311: the projector is that of the particle. *)
Definition F_VF_D1 (P Q : vec) := Vf_D1 (Spin1hProjector P) P Q.
(** 314-367 *)
Definition R_FS_P (P Q : vec) := to_r_P (Spin1hbProjector P) P Q.
Definition R_FS_D (P Q : vec) := to_r_D (Spin1hbProjector P) P Q.
Definition F_RS_D (P Q : vec) := rS_D (Spin1hbProjector P) P Q.
Definition F_RS_P (P Q : vec) := rS_P (Spin1hbProjector P) P Q.
Definition F_RS_P1 (P Q : vec) := rS_P1 (Spin1hbProjector P) P Q.
(** 84-95, 260-271: f_fS_SL, f_fS_SR, F_FS_SL, F_FS_SR. The matrix [m] (the projector times Identity -/+ Gamma5, 16 components)
    is multiplied with V2, the tensor of the scalar, which has one component; V1 is not used. The product is that of
    src/Tensor.cpp:373-451 (Verif.Tensor.Model); the indices a, b, c are the cells 0, 1, 2. *)
Definition fS_chiral (m : list C) (V1 : vec) (V2 : C) : res (Tensor.Model.proxy C) :=
  Tensor.Model.proxy_mul C (RtoC 0) (RtoC 1) Cplus Cmult Copp
    (Tensor.Model.Proxy (Tensor.Model.Tensor (4 :: 4 :: nil)%nat m (seq 0 16)) ((0, false) :: (2, false) :: nil)%nat)
    (Tensor.Model.Proxy (Tensor.Model.Tensor (1 :: nil)%nat (V2 :: nil) (0 :: nil)%nat) ((2, false) :: nil)%nat).
