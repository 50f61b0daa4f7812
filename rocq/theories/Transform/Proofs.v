From Verif.Common Require Import Prelude.
From Coq Require Import Reals Lra Lia Psatz Nsatz.
From Verif.Kinematics Require Import Model Spec Proofs.
From Verif.Transform Require Import Model Spec.
Local Open Scope R_scope.

Lemma cx_eq a b : re a = re b -> im a = im b -> a = b.
Proof. destruct a, b. cbn. now intros -> ->. Qed.
Lemma cx_eta a : Cx (re a) (im a) = a. Proof. now destruct a. Qed.

(** ** Vectors *)
Definition vec2 (p q : p4) : list cx := [Cx (vx (vect p)) (vx (vect q)); Cx (vy (vect p)) (vy (vect q)); Cx (vz (vect p)) (vz (vect q)); Cx (en p) (en q)].
Definition turnCS (u : v3) (c s : R) (x : v3) : v3 := add3 (add3 (scale c x) (scale s (cross u x))) (scale ((1 - c) * dot3 u x) u).
Definition pushS (u : v3) (g s : R) (p : p4) : p4 := P4 (add3 (vect p) (scale ((g - 1) * dot3 u (vect p) - s * en p) u)) (g * en p - s * dot3 u (vect p)).
Definition act (t : transform) (p : p4) : p4 :=
  match kind t with
  | Rotate => P4 (turnCS (axis t) (arg t) (sqrt (1 - arg t * arg t)) (vect p)) (en p)
  | Boost => pushS (axis t) (arg t) (sqrt (arg t * arg t - 1)) p
  end.
Lemma vec2_eq p q p' q' : p = p' -> q = q' -> vec2 p q = vec2 p' q'. Proof. now intros -> ->. Qed.
Lemma mvec4 f a b c d : mvec (Mat 4 4 f) [a; b; c; d] =
  Ok (map (fun i => cadd (cadd (cadd (cadd c0 (cmul (f i 0%nat) a)) (cmul (f i 1%nat) b)) (cmul (f i 2%nat) c)) (cmul (f i 3%nat) d)) [0; 1; 2; 3]%nat).
Proof. reflexivity. Qed.
(** real matrices *)
Definition rsum4 (f : nat -> R) : R := f 0%nat + f 1%nat + f 2%nat + f 3%nat.
Definition four (p : p4) (i : nat) : R := match i with O => vx (vect p) | 1%nat => vy (vect p) | 2%nat => vz (vect p) | _ => en p end.
Lemma mvec_real f g p q : (forall i j, (i < 4)%nat -> (j < 4)%nat -> f i j = cof (g i j)) ->
  let r p := P4 (V3 (rsum4 (fun j => g 0%nat j * four p j)) (rsum4 (fun j => g 1%nat j * four p j)) (rsum4 (fun j => g 2%nat j * four p j))) (rsum4 (fun j => g 3%nat j * four p j)) in
  mvec (Mat 4 4 f) (vec2 p q) = Ok (vec2 (r p) (r q)).
Proof.
  intros H r. unfold vec2 at 1. rewrite mvec4. cbn [map]. rewrite !H by lia. unfold vec2, r. cbn [vect en vx vy vz]. unfold rsum4, four.
  f_equal. do 4 (apply (f_equal2 cons); [apply cx_eq; unfold c0, cadd, cmul, cof; cbn [re im]; ring|]). reflexivity.
Qed.
Definition table (l : list R) (i j : nat) : R := List.nth (i * 4 + j) l 0.
Lemma square_real l i j : ent (square 4 (map cof l)) i j = cof (table l i j).
Proof. unfold square, table. cbn [ent]. change c0 with (cof 0). now rewrite map_nth. Qed.
Definition quad (l : list R) (s c : R) (i j : nat) : R := (if Nat.eqb i j then 1 else 0) + s * table l i j + c * rsum4 (fun m => table l i m * table l m j).
Lemma quad_real l N s c p q : (forall i j, ent N i j = cof (s * table l i j)) -> let K := square 4 (map cof l) in
  let r p := P4 (V3 (rsum4 (fun j => quad l s c 0 j * four p j)) (rsum4 (fun j => quad l s c 1 j * four p j)) (rsum4 (fun j => quad l s c 2 j * four p j))) (rsum4 (fun j => quad l s c 3 j * four p j)) in
  bind (bind (mmul (mscale (cof c) K) K) (fun KK => Ok (madd (madd (Identity 4) N) KK))) (fun m => mvec m (vec2 p q)) = Ok (vec2 (r p) (r q)).
Proof.
  intros H K r. unfold mmul, mscale, madd, Identity. cbn [rows cols K square Nat.leb bind]. fold K. apply mvec_real. intros i j _ _. cbn [ent]. rewrite H. cbn [csum]. unfold K. rewrite !(square_real l).
  unfold quad, rsum4. destruct (Nat.eqb i j); apply cx_eq; unfold c0, c1, cadd, cmul, cof; cbn [re im]; ring.
Qed.
Ltac by_unit C := match goal with U : ?l = 1 |- _ => solve [apply Rminus_diag_uniq; transitivity (C * (l - 1)); [ring|rewrite U; ring]] end.
Lemma apply1_vector t p q : dot3 (axis t) (axis t) = 1 -> apply1 t (vec2 p q) Vector = Ok (vec2 (act t p) (act t q)).
Proof.
  destruct t as [a [k1 k2 k3] [|]]; cbn [axis]; intro U; unfold dot3 in U; cbn [vx vy vz] in U; unfold apply1, act; cbn [kind matrix arg axis]; set (s := sqrt _); clearbody s.
  - set (l := [0; 0; 0; k1; 0; 0; 0; k2; 0; 0; 0; k3; k1; k2; k3; 0]). change (K_dot_p (V3 k1 k2 k3)) with (square 4 (map cof l)).
    rewrite (quad_real l _ (- s) (a - 1)) by (intros; unfold mscale; cbn [ent]; rewrite (square_real l); apply cx_eq; unfold cmul, cof; cbn [re im]; ring).
    f_equal. unfold rsum4, quad, table, rsum4, four. unfold l. cbn [List.nth Nat.mul Nat.add Nat.eqb]. apply vec2_eq; apply p4_eq; try apply v3_eq; unfold pushS, add3, scale, dot3; cbn [vect en vx vy vz].
    all: first [ring|by_unit ((a - 1) * en p)|by_unit ((a - 1) * en q)].
  - set (l := [0; - k3; k2; 0; k3; 0; - k1; 0; - k2; k1; 0; 0; 0; 0; 0; 0]). change (J_dot_p (V3 k1 k2 k3)) with (square 4 (map cof l)).
    rewrite (quad_real l _ s (1 - a)) by (intros; unfold mscale; cbn [ent]; rewrite (square_real l); apply cx_eq; unfold cmul, cof; cbn [re im]; ring).
    f_equal. unfold rsum4, quad, table, rsum4, four. unfold l. cbn [List.nth Nat.mul Nat.add Nat.eqb]. apply vec2_eq; apply p4_eq; try apply v3_eq; unfold turnCS, add3, scale, cross, dot3; cbn [vect en vx vy vz].
    all: first [ring|by_unit ((a - 1) * vx (vect p))|by_unit ((a - 1) * vy (vect p))|by_unit ((a - 1) * vz (vect p))|by_unit ((a - 1) * vx (vect q))|by_unit ((a - 1) * vy (vect q))|by_unit ((a - 1) * vz (vect q))].
Qed.

(** ** Spinors *)
Definition half (t : transform) : R := sqrt (1 / 2 * (1 + arg t)).
Definition other (t : transform) : R := match kind t with Rotate => sqrt (1 / 2 * (1 - arg t)) | Boost => sqrt (1 / 2 * (arg t - 1)) end.
Definition spinc (k : v3) (c : R) (w a b : cx) : cx * cx := (cadd (cmul (cof c) a) (cmul w (fst (sigma k a b))), cadd (cmul (cof c) b) (cmul w (snd (sigma k a b)))).
Definition weight (t : transform) : cx := match kind t with Rotate => Cx 0 (- other t) | Boost => cof (other t) end.
Definition spin (t : transform) (a b : cx) : cx * cx := spinc (axis t) (half t) (weight t) a b.
Definition bispin (t : transform) (a b c d : cx) : list cx :=
  match kind t with
  | Rotate => let '(a', b') := spin t a b in let '(c', d') := spin t c d in [a'; b'; c'; d']
  | Boost => let '(u, v) := sigma (axis t) a b in let '(u', v') := sigma (axis t) c d in
      [cadd (cmul (cof (half t)) a) (cmul (cof (- other t)) u'); cadd (cmul (cof (half t)) b) (cmul (cof (- other t)) v');
       cadd (cmul (cof (- other t)) u) (cmul (cof (half t)) c); cadd (cmul (cof (- other t)) v) (cmul (cof (half t)) d)]
  end.
Ltac cx := apply cx_eq; unfold mi, m1, ci, c0, c1, cadd, cmul, copp, cof; cbn [re im]; ring.
Lemma sigma_ent k : ent (sigma_dot_p k) 0 0 = cof (vz k) /\ ent (sigma_dot_p k) 0 1 = Cx (vx k) (- vy k) /\ ent (sigma_dot_p k) 1 0 = Cx (vx k) (vy k) /\ ent (sigma_dot_p k) 1 1 = cof (- vz k).
Proof.
  unfold sigma_dot_p, madd, mscale, Sigma0, Sigma1, Sigma2, square. cbn [ent rows cols Nat.mul Nat.add List.nth]. repeat split; cx.
Qed.
Lemma rotate_ent t : let c := sqrt (1 / 2 * (1 + arg t)) in let s := sqrt (1 / 2 * (1 - arg t)) in let k := axis t in
  ent (rotate_spinor t) 0 0 = Cx c (- s * vz k) /\ ent (rotate_spinor t) 0 1 = Cx (- s * vy k) (- s * vx k) /\ ent (rotate_spinor t) 1 0 = Cx (s * vy k) (- s * vx k) /\ ent (rotate_spinor t) 1 1 = Cx c (s * vz k).
Proof.
  intros c s k. unfold rotate_spinor. fold c s k. unfold madd, mscale, Identity. cbn [ent Nat.eqb]. destruct (sigma_ent k) as (-> & -> & -> & ->). repeat split; cx.
Qed.
Lemma boost_ent t : let c := sqrt (1 / 2 * (arg t + 1)) in let s := sqrt (1 / 2 * (arg t - 1)) in let k := axis t in
  ent (boost_spinor t) 0 0 = cof (c + s * vz k) /\ ent (boost_spinor t) 0 1 = Cx (s * vx k) (- s * vy k) /\ ent (boost_spinor t) 1 0 = Cx (s * vx k) (s * vy k) /\ ent (boost_spinor t) 1 1 = cof (c - s * vz k).
Proof.
  intros c s k. unfold boost_spinor. fold c s k. unfold madd, mscale, Identity. cbn [ent Nat.eqb]. destruct (sigma_ent k) as (-> & -> & -> & ->). repeat split; cx.
Qed.
Lemma mvec2 m a b : rows m = 2%nat -> cols m = 2%nat -> mvec m [a; b] = Ok [cadd (cadd c0 (cmul (ent m 0%nat 0%nat) a)) (cmul (ent m 0%nat 1%nat) b); cadd (cadd c0 (cmul (ent m 1%nat 0%nat) a)) (cmul (ent m 1%nat 1%nat) b)].
Proof. destruct m as [r q f]. cbn [rows cols]. intros -> ->. reflexivity. Qed.
Lemma apply1_spinor t a b : apply1 t [a; b] Spinor = Ok [fst (spin t a b); snd (spin t a b)].
Proof.
  unfold apply1, spin, half, weight, other, matrix. destruct (kind t) eqn:K; cbn [bind].
  - rewrite mvec2 by reflexivity. destruct (boost_ent t) as (-> & -> & -> & ->). rewrite (Rplus_comm (arg t) 1). set (c := sqrt _). set (s := sqrt _). clearbody c s.
    unfold spinc, sigma. cbn [fst snd]. f_equal. apply (f_equal2 cons); [cx|]. apply (f_equal2 cons); [cx|]. reflexivity.
  - rewrite mvec2 by reflexivity. destruct (rotate_ent t) as (-> & -> & -> & ->). set (c := sqrt _). set (s := sqrt _). clearbody c s.
    unfold spinc, sigma. cbn [fst snd]. f_equal. apply (f_equal2 cons); [cx|]. apply (f_equal2 cons); [cx|]. reflexivity.
Qed.
Lemma apply1_bispinor t a b c d : apply1 t [a; b; c; d] Bispinor = Ok (bispin t a b c d).
Proof.
  unfold apply1, bispin, spin, half, weight, other, matrix. destruct (kind t) eqn:K; cbn [bind].
  - rewrite (Rplus_comm (arg t) 1). set (h := sqrt _). set (s := sqrt _). clearbody h s. unfold make_bispinor_operator. unfold mscale, Identity. cbn [ent rows cols Nat.eqb]. destruct (sigma_ent (axis t)) as (-> & -> & -> & ->).
    unfold square. rewrite mvec4. cbn [map List.nth Nat.mul Nat.add]. unfold sigma. f_equal. do 4 (apply (f_equal2 cons); [cx|]). reflexivity.
  - unfold make_bispinor_operator. destruct (rotate_ent t) as (-> & -> & -> & ->). set (h := sqrt _). set (s := sqrt _). clearbody h s.
    unfold square. rewrite mvec4. cbn [map List.nth Nat.mul Nat.add ent]. unfold spinc, sigma. cbn [fst snd]. f_equal. do 4 (apply (f_equal2 cons); [cx|]). reflexivity.
Qed.

(** half angles *)
Lemma half_rotate t : valid t -> kind t = Rotate -> half t * half t + other t * other t * dot3 (axis t) (axis t) = 1 /\
  arg t = half t * half t - other t * other t /\ sqrt (1 - arg t * arg t) = 2 * half t * other t.
Proof.
  intros [U V] K. rewrite U. unfold half, other. rewrite K in *. set (a := arg t) in *. set (h := sqrt (1 / 2 * (1 + a))). set (o := sqrt (1 / 2 * (1 - a))).
  assert (H : h * h = 1 / 2 * (1 + a)) by (apply sqrt_sqrt; lra). assert (O : o * o = 1 / 2 * (1 - a)) by (apply sqrt_sqrt; lra). assert (0 <= h) by apply sqrt_pos. assert (0 <= o) by apply sqrt_pos.
  split; [lra|]. split; [lra|]. replace (1 - a * a) with ((2 * h * o) * (2 * h * o)) by (replace ((2 * h * o) * (2 * h * o)) with (4 * (h * h) * (o * o)) by ring; rewrite H, O; field). apply sqrt_square. nra.
Qed.
Lemma half_boost t : valid t -> kind t = Boost -> half t * half t - other t * other t * dot3 (axis t) (axis t) = 1 /\
  arg t = half t * half t + other t * other t /\ sqrt (arg t * arg t - 1) = 2 * half t * other t.
Proof.
  intros [U V] K. rewrite U. unfold half, other. rewrite K in *. set (a := arg t) in *. set (h := sqrt (1 / 2 * (1 + a))). set (o := sqrt (1 / 2 * (a - 1))).
  assert (H : h * h = 1 / 2 * (1 + a)) by (apply sqrt_sqrt; lra). assert (O : o * o = 1 / 2 * (a - 1)) by (apply sqrt_sqrt; lra). assert (0 <= h) by apply sqrt_pos. assert (0 <= o) by apply sqrt_pos.
  split; [lra|]. split; [lra|]. replace (a * a - 1) with ((2 * h * o) * (2 * h * o)) by (replace ((2 * h * o) * (2 * h * o)) with (4 * (h * h) * (o * o)) by ring; rewrite H, O; field). apply sqrt_square. nra.
Qed.
(** the momentum after the transform, by half angles *)
Definition act_half (t : transform) (p : p4) : p4 :=
  let h := half t in let o := other t in let k := axis t in let f := dot3 k k in
  match kind t with
  | Rotate => P4 (add3 (add3 (scale (h * h - o * o * f) (vect p)) (scale (2 * h * o) (cross k (vect p)))) (scale (2 * o * o * dot3 k (vect p)) k)) ((h * h + o * o * f) * en p)
  | Boost => P4 (add3 (scale (h * h - o * o * f) (vect p)) (scale (2 * o * o * dot3 k (vect p) - 2 * h * o * en p) k)) ((h * h + o * o * f) * en p - 2 * h * o * dot3 k (vect p))
  end.
Lemma act_halves t p : valid t -> act_half t p = act t p.
Proof.
  intro V. pose proof V as [U _]. unfold act_half, act. destruct (kind t) eqn:K.
  - destruct (half_boost t V K) as (E1 & E2 & E3). rewrite E3, E2. unfold pushS. rewrite U in *. assert (O : other t * other t = half t * half t - 1) by lra. apply p4_eq; cbn [vect en].
    + replace (half t * half t - other t * other t * 1) with 1 by lra. replace (half t * half t + other t * other t - 1) with (2 * other t * other t) by lra. v3.
    + ring.
  - destruct (half_rotate t V K) as (E1 & E2 & E3). rewrite E3, E2. unfold turnCS. rewrite U in *. apply p4_eq; cbn [vect en].
    + replace (half t * half t - other t * other t * 1) with (half t * half t - other t * other t) by lra. replace (1 - (half t * half t - other t * other t)) with (2 * other t * other t) by lra. v3.
    + rewrite E1. ring.
Qed.
Ltac flat t k1 k2 k3 h o := unfold act_half, spin, bispin, spin, weight, half, other; destruct t as [g [k1 k2 k3] [|]]; cbn [kind arg axis]; set (h := sqrt (1 / 2 * (1 + g))); [set (o := sqrt (1 / 2 * (g - 1)))|set (o := sqrt (1 / 2 * (1 - g)))]; clearbody h o.
Lemma current_half t a b : current (fst (spin t a b)) (snd (spin t a b)) = act_half t (current a b).
Proof.
  flat t k1 k2 k3 h o; unfold spinc, sigma; cbn [fst snd vx vy vz]; destruct a as [a1 a2], b as [b1 b2]; unfold current, norm2, cadd, cmul, cof, dot3, cross, add3, scale; cbn [re im vect en vx vy vz]; apply p4_eq; cbn [vect en]; try apply v3_eq; cbn [vx vy vz]; ring.
Qed.
Definition factor (t : transform) : R := let f := dot3 (axis t) (axis t) in match kind t with Rotate => half t * half t + other t * other t * f | Boost => half t * half t - other t * other t * f end.
Lemma factor_1 t : valid t -> factor t = 1.
Proof. intro V. unfold factor. destruct (kind t) eqn:K; [apply (half_boost t V K)|apply (half_rotate t V K)]. Qed.
Lemma spin_inverse t a b : spin (inverse1 t) (fst (spin t a b)) (snd (spin t a b)) = (cmul (cof (factor t)) a, cmul (cof (factor t)) b).
Proof.
  unfold inverse1, factor. flat t k1 k2 k3 h o; unfold spinc, sigma, scale; cbn [fst snd vx vy vz]; destruct a as [a1 a2], b as [b1 b2]; unfold dot3; cbn [vx vy vz]; apply f_equal2; cx.
Qed.
Lemma area_half t a b a' b' : area (fst (spin t a b)) (snd (spin t a b)) (fst (spin t a' b')) (snd (spin t a' b')) = cmul (cof (factor t)) (area a b a' b').
Proof.
  unfold factor, area. flat t k1 k2 k3 h o; unfold spinc, sigma; cbn [fst snd vx vy vz]; destruct a as [a1 a2], b as [b1 b2], a' as [a1' a2'], b' as [b1' b2']; unfold dot3; cbn [vx vy vz]; cx.
Qed.

(** ** Bispinors *)
Definition on4 {A} (f : cx -> cx -> cx -> cx -> A) (l : list cx) : A := f (List.nth 0 l c0) (List.nth 1 l c0) (List.nth 2 l c0) (List.nth 3 l c0).
Lemma bispin_inverse t a b c d : on4 (bispin (inverse1 t)) (bispin t a b c d) = map (cmul (cof (factor t))) [a; b; c; d].
Proof.
  unfold inverse1, factor, on4. flat t k1 k2 k3 h o; unfold spinc, sigma, scale; cbn [fst snd vx vy vz List.nth]; destruct a as [a1 a2], b as [b1 b2], c as [x1 x2], d as [d1 d2]; unfold dot3; cbn [vx vy vz map];
    do 4 (apply (f_equal2 cons); [cx|]); reflexivity.
Qed.
Lemma slash_half t p a b c d : map (cmul (cof (factor t))) (on4 (bispin t) (slash p a b c d)) = on4 (slash (act_half t p)) (bispin t a b c d).
Proof.
  unfold factor, on4. flat t k1 k2 k3 h o; unfold spinc, slash, sigma, add3, scale, cross, dot3; cbn [fst snd vx vy vz vect en List.nth]; destruct a as [a1 a2], b as [b1 b2], c as [x1 x2], d as [d1 d2], p as [[p1 p2 p3] e]; cbn [vx vy vz vect en map];
    do 4 (apply (f_equal2 cons); [cx|]); reflexivity.
Qed.
Lemma bar_half t a b c d a' b' c' d' : on4 (on4 bar (bispin t a b c d)) (bispin t a' b' c' d') = cmul (cof (factor t)) (bar a b c d a' b' c' d').
Proof.
  unfold factor, on4, bar. flat t k1 k2 k3 h o; unfold spinc, sigma, dot3, conj; cbn [fst snd vx vy vz List.nth]; destruct a as [a1 a2], b as [b1 b2], c as [x1 x2], d as [d1 d2]; destruct a' as [a1' a2'], b' as [b1' b2'], c' as [x1' x2'], d' as [d1' d2']; cx.
Qed.
