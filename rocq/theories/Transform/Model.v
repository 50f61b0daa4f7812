(** Boosts and rotations of spinors and vectors: src/Transform.cpp, src/DiracMatrices.cpp:14-25, src/Wigner.cpp:100-128. Real
    and complex numbers instead of expressions: what an expression evaluates to is C19-C22. *)
From Verif.Common Require Import Prelude.
From Coq Require Import Reals.
From Verif.Kinematics Require Import Model.
Local Open Scope R_scope.

(** Complex numbers *)
Record cx := Cx { re : R; im : R }.
Definition cof (x : R) : cx := Cx x 0.
Definition c0 : cx := cof 0. Definition c1 : cx := cof 1. Definition ci : cx := Cx 0 1.
Definition cadd (a b : cx) : cx := Cx (re a + re b) (im a + im b).
Definition cmul (a b : cx) : cx := Cx (re a * re b - im a * im b) (re a * im b + im a * re b).
Definition copp (a : cx) : cx := Cx (- re a) (- im a).
Fixpoint csum (n : nat) (f : nat -> cx) : cx := match n with O => c0 | S m => cadd (csum m f) (f m) end.

(** Tensors of rank two. Element by element they are as in the model of src/Tensor.cpp (C26). *)
Record mat := Mat { rows : nat; cols : nat; ent : nat -> nat -> cx }.
(** A square tensor from the list of its elements: src/Tensor.cpp:25-60. Elements that are not given are zero. *)
Definition square (n : nat) (l : list cx) : mat := Mat n n (fun i j => nth (i * n + j) l c0).
(** src/Tensor.cpp:595-600, 166-182, 222-240 *)
Definition Identity (n : nat) : mat := Mat n n (fun i j => if Nat.eqb i j then c1 else c0).
Definition madd (a b : mat) : mat := Mat (rows a) (cols a) (fun i j => cadd (ent a i j) (ent b i j)).
Definition mscale (s : cx) (a : mat) : mat := Mat (rows a) (cols a) (fun i j => cmul (ent a i j) s).
(** src/Tensor.cpp:373-451 for a(i,j) * b(j,k) (C27). The sum runs over the dimension of a; beyond the last row of b it would read past
    the elements. *)
Definition mmul (a b : mat) : res mat :=
  if (cols a <=? rows b)%nat then Ok (Mat (rows a) (cols b) (fun i k => csum (cols a) (fun j => cmul (ent a i j) (ent b j k)))) else UB.
(** The same for a(i,j) * v(j) *)
Definition mvec (a : mat) (v : list cx) : res (list cx) :=
  if (cols a <=? List.length v)%nat then Ok (map (fun i => csum (cols a) (fun j => cmul (ent a i j) (nth j v c0))) (seq 0 (rows a))) else UB.

(** src/DiracMatrices.cpp:11-25 *)
Definition mi : cx := copp ci. Definition m1 : cx := copp c1.
Definition Gamma0 := square 4 [c0; c0; c0; c1; c0; c0; c1; c0; c0; m1; c0; c0; m1; c0; c0; c0].
Definition Gamma1 := square 4 [c0; c0; c0; mi; c0; c0; ci; c0; c0; ci; c0; c0; mi; c0; c0; c0].
Definition Gamma2 := square 4 [c0; c0; c1; c0; c0; c0; c0; m1; m1; c0; c0; c0; c0; c1; c0; c0].
Definition Gamma3 := square 4 [c1; c0; c0; c0; c0; c1; c0; c0; c0; c0; m1; c0; c0; c0; c0; m1].
Definition Sigma0 := square 2 [c0; c1; c1; c0].
Definition Sigma1 := square 2 [c0; mi; ci; c0].
Definition Sigma2 := square 2 [c1; c0; c0; m1].

(** AmpGen/Transform.h:20-21, 34-36; src/Transform.cpp:5-14 *)
Inductive type := Boost | Rotate.
Inductive representation := Spinor | Bispinor | Vector.
Record transform := Transform { arg : R; axis : v3; kind : type }.
Definition inverse1 (t : transform) : transform := Transform (arg t) (scale (-1) (axis t)) (kind t).

(** src/Transform.cpp:24-46 *)
Definition sigma_dot_p (p : v3) : mat := madd (madd (mscale (cof (vx p)) Sigma0) (mscale (cof (vy p)) Sigma1)) (mscale (cof (vz p)) Sigma2).
Definition J_dot_p (p : v3) : mat :=
  square 4 [c0; cof (- vz p); cof (vy p); c0;  cof (vz p); c0; cof (- vx p); c0;  cof (- vy p); cof (vx p); c0; c0;  c0; c0; c0; c0].
Definition K_dot_p (p : v3) : mat :=
  square 4 [c0; c0; c0; cof (vx p);  c0; c0; c0; cof (vy p);  c0; c0; c0; cof (vz p);  cof (vx p); cof (vy p); cof (vz p); c0].
(** src/Transform.cpp:48-55 *)
Definition make_bispinor_operator (A B C D : mat) : mat :=
  square 4 [ent A 0 0; ent A 0 1; ent B 0 0; ent B 0 1;  ent A 1 0; ent A 1 1; ent B 1 0; ent B 1 1;
            ent C 0 0; ent C 0 1; ent D 0 0; ent D 0 1;  ent C 1 0; ent C 1 1; ent D 1 0; ent D 1 1]%nat.
(** src/Transform.cpp:57-66 *)
Definition rotate_spinor (t : transform) : mat :=
  madd (mscale (cof (sqrt (1 / 2 * (1 + arg t)))) (Identity 2)) (mscale (cof (-1)) (mscale (cof (sqrt (1 / 2 * (1 - arg t)))) (mscale ci (sigma_dot_p (axis t))))).
Definition boost_spinor (t : transform) : mat :=
  madd (mscale (cof (sqrt (1 / 2 * (arg t + 1)))) (Identity 2)) (mscale (cof (sqrt (1 / 2 * (arg t - 1)))) (sigma_dot_p (axis t))).
(** src/Transform.cpp:67-97 *)
Definition matrix (t : transform) (repr : representation) : res mat :=
  match kind t, repr with
  | Rotate, Spinor => Ok (rotate_spinor t)
  | Boost, Spinor => Ok (boost_spinor t)
  | Rotate, Bispinor => let r := rotate_spinor t in let z := square 2 [] in Ok (make_bispinor_operator r z z r)
  | Boost, Bispinor =>
      let t1 := mscale (cof (sqrt (1 / 2 * (arg t + 1)))) (Identity 2) in
      let t2 := mscale (cof (sqrt (1 / 2 * (arg t - 1)))) (mscale m1 (sigma_dot_p (axis t))) in
      Ok (make_bispinor_operator t1 t2 t2 t1)
  | Rotate, Vector =>
      let K := J_dot_p (axis t) in
      bind (mmul (mscale (cof (1 - arg t)) K) K) (fun KK => Ok (madd (madd (Identity 4) (mscale (cof (sqrt (1 - arg t * arg t))) K)) KK))
  | Boost, Vector =>
      let K := K_dot_p (axis t) in
      bind (mmul (mscale (cof (arg t - 1)) K) K) (fun KK => Ok (madd (madd (Identity 4) (mscale (cof (-1)) (mscale (cof (sqrt (arg t * arg t - 1))) K))) KK))
  end.

(** src/Transform.cpp:112-133: m_transforms and m_cache. The loop multiplies from the left. The [if] without [else] for an empty sequence
    leaves the identity in four dimensions in every place. *)
Record sequence := Seq { transforms : list transform; cache : representation -> res mat }.
Definition product (ts : list transform) (repr : representation) : res mat :=
  match ts with
  | [] => Ok (Identity 4)
  | t :: r => fold_left (fun rt t => bind rt (fun rt => bind (matrix t repr) (fun rti => mmul rti rt))) r (matrix t repr)
  end.
Definition buildCache (ts : list transform) : sequence := Seq ts (product ts).
(** src/Transform.cpp:211-214, 181-183, 151-167, 99-105 *)
Definition empty : sequence := buildCache [].
Definition of_transform (t : transform) : sequence := buildCache [t].
Definition push_back (s : sequence) (t : transform) : sequence := buildCache (transforms s ++ [t]).
Definition push_back_all (s s' : sequence) : sequence := buildCache (transforms s ++ transforms s').
Definition clear (s : sequence) : sequence := buildCache [].
Definition inverse (s : sequence) : sequence := fold_left (fun rt t => push_back rt (inverse1 t)) (rev (transforms s)) empty.
(** src/Transform.cpp:185-209: two sequences, or two transforms *)
Definition join (s s' : sequence) : sequence :=
  Seq (transforms s ++ transforms s') (fun repr => bind (cache s repr) (fun r1 => bind (cache s' repr) (fun r2 => mmul r2 r1))).
Definition pair_of (t t' : transform) : sequence :=
  Seq [t; t'] (fun repr => bind (matrix t repr) (fun r1 => bind (matrix t' repr) (fun r2 => mmul r2 r1))).
(** src/Transform.cpp:107-110, 135-149: the default representation is Vector *)
Definition apply (s : sequence) (v : list cx) (repr : representation) : res (list cx) := bind (cache s repr) (fun m => mvec m v).
Definition apply1 (t : transform) (v : list cx) (repr : representation) : res (list cx) := bind (matrix t repr) (fun m => mvec m v).

(** src/Wigner.cpp:100-128. [boosts]: the particle is unstable, or neither a photon nor a neutrino. [ve] is 1 or -1. *)
Definition wick (P : p4) (mass2 : R) (boosts : bool) (ve : Z) : sequence :=
  let x := V3 1 0 0 in let y := V3 0 1 0 in let z := V3 0 0 1 in
  let px := vx (vect P) in let py := vy (vect P) in let pz := vz (vect P) in
  let pT := px * px + py * py in
  let pP := px * px + py * py + pz * pz in
  let eps := / 10 ^ 15 in
  let cos_theta := if Rlt_dec eps pP then pz / sqrt pP else 1 in
  let cos_phi := if Rlt_dec eps pT then px / sqrt pT else 1 in
  let sin_phi := if Rlt_dec eps pT then py / sqrt pT else 0 in
  let rot := if (ve =? 1)%Z then Transform cos_theta (add3 (scale sin_phi x) (scale (-1) (scale cos_phi y))) Rotate
             else Transform (- cos_theta) (add3 (scale (- sin_phi) x) (scale cos_phi y)) Rotate in
  let s := of_transform rot in
  let s := if (ve =? -1)%Z then push_back s (Transform (-1) x Rotate) else s in
  if boosts then join s (of_transform (Transform (en P / sqrt mass2) z Boost)) else s.
