(** Sequences of transforms. *)
From Verif.Common Require Import Prelude.
From Coq Require Import Reals Lra Lia.
From Verif.Kinematics Require Import Model Spec Proofs.
From Verif.Transform Require Import Model Spec Proofs.
Local Open Scope R_scope.

Lemma cadd_comm a b : cadd a b = cadd b a. Proof. cx. Qed.
Lemma cadd_assoc a b c : cadd (cadd a b) c = cadd a (cadd b c). Proof. cx. Qed.
Lemma cmul_assoc a b c : cmul (cmul a b) c = cmul a (cmul b c). Proof. cx. Qed.
Lemma cmul_add_l a b c : cmul (cadd a b) c = cadd (cmul a c) (cmul b c). Proof. cx. Qed.
Lemma cmul_add_r a b c : cmul c (cadd a b) = cadd (cmul c a) (cmul c b). Proof. cx. Qed.
Lemma cmul_0_l a : cmul c0 a = c0. Proof. cx. Qed.
Lemma cmul_0_r a : cmul a c0 = c0. Proof. cx. Qed.
Lemma cmul_1_l a : cmul c1 a = a. Proof. destruct a. cx. Qed.
Lemma cadd_0_l a : cadd c0 a = a. Proof. destruct a. cx. Qed.
Lemma cadd_0_r a : cadd a c0 = a. Proof. destruct a. cx. Qed.
Lemma csum_ext n f g : (forall i, (i < n)%nat -> f i = g i) -> csum n f = csum n g.
Proof. induction n as [|n IH]; intro H; [reflexivity|]. cbn. rewrite IH, H by (intros; try apply H; lia). reflexivity. Qed.
Lemma csum_mul_r n f c : cmul (csum n f) c = csum n (fun i => cmul (f i) c).
Proof. induction n as [|n IH]; cbn; [apply cmul_0_l|]. now rewrite cmul_add_l, IH. Qed.
Lemma csum_mul_l n f c : cmul c (csum n f) = csum n (fun i => cmul c (f i)).
Proof. induction n as [|n IH]; cbn; [apply cmul_0_r|]. now rewrite cmul_add_r, IH. Qed.
Lemma csum_add n f g : csum n (fun i => cadd (f i) (g i)) = cadd (csum n f) (csum n g).
Proof. induction n as [|n IH]; cbn; [now rewrite cadd_0_l|]. rewrite IH, !cadd_assoc. f_equal. rewrite <- !cadd_assoc. f_equal. apply cadd_comm. Qed.
Lemma csum_0 n : csum n (fun _ => c0) = c0.
Proof. induction n as [|n IH]; cbn; [reflexivity|]. now rewrite IH, cadd_0_l. Qed.
Lemma csum_swap n m f : csum n (fun i => csum m (fun j => f i j)) = csum m (fun j => csum n (fun i => f i j)).
Proof. induction n as [|n IH]; cbn; [now rewrite csum_0|]. rewrite IH. symmetry. apply csum_add. Qed.
Lemma nth_map_seq (f : nat -> cx) n i d : (i < n)%nat -> nth i (map f (seq 0 n)) d = f i.
Proof. intro H. rewrite (nth_indep _ d (f 0%nat)) by (rewrite map_length, seq_length; lia). rewrite map_nth, seq_nth by lia. reflexivity. Qed.
Lemma mvec_length a v w : mvec a v = Ok w -> List.length w = rows a.
Proof. unfold mvec. destruct (_ <=? _)%nat; [|discriminate]. intro H. injection H as <-. now rewrite map_length, seq_length. Qed.
Lemma mvec_mmul a b m v w : cols a = rows b -> mmul a b = Ok m -> mvec b v = Ok w -> mvec m v = mvec a w.
Proof.
  intros D M W. pose proof (mvec_length _ _ _ W) as L. unfold mmul in M. rewrite D, Nat.leb_refl in M. injection M as <-. unfold mvec in W. destruct (cols b <=? List.length v)%nat eqn:C; [|discriminate]. injection W as <-.
  unfold mvec. cbn [cols rows ent]. rewrite C, L, D, Nat.leb_refl. f_equal. apply map_ext. intro i.
  transitivity (csum (cols b) (fun k => csum (rows b) (fun j => cmul (cmul (ent a i j) (ent b j k)) (nth k v c0)))); [apply csum_ext; intros; apply csum_mul_r|].
  rewrite csum_swap. apply csum_ext. intros j Hj. rewrite nth_map_seq by exact Hj. rewrite csum_mul_l. apply csum_ext. intros k _. apply cmul_assoc.
Qed.
Lemma mvec_ok a v : cols a = List.length v -> exists w, mvec a v = Ok w.
Proof. intro H. unfold mvec. rewrite H, Nat.leb_refl. eauto. Qed.
Lemma mmul_ok a b : cols a = rows b -> exists m, mmul a b = Ok m /\ rows m = rows a /\ cols m = cols b.
Proof. intro H. unfold mmul. rewrite H, Nat.leb_refl. eexists. split; [reflexivity|]. split; reflexivity. Qed.
Lemma identity_mvec v : mvec (Identity (List.length v)) v = Ok v.
Proof.
  unfold mvec. cbn [Identity cols rows ent]. rewrite Nat.leb_refl. f_equal. apply nth_ext with (d := c0) (d' := c0); rewrite map_length, seq_length; [reflexivity|]. intros i Hi. rewrite nth_map_seq by exact Hi.
  assert (G : forall n, csum n (fun j => cmul (if Nat.eqb i j then c1 else c0) (nth j v c0)) = if (i <? n)%nat then nth i v c0 else c0).
  { induction n as [|n IH]; [reflexivity|]. cbn [csum]. rewrite IH. destruct (Nat.eqb_spec i n) as [-> |N].
    - rewrite (proj2 (Nat.ltb_ge n n)), (proj2 (Nat.ltb_lt n (S n))) by lia. now rewrite cmul_1_l, cadd_0_l.
    - rewrite cmul_0_l, cadd_0_r. destruct (Nat.ltb_spec i n), (Nat.ltb_spec i (S n)); try reflexivity; lia. }
  rewrite G. apply Nat.ltb_lt in Hi. now rewrite Hi.
Qed.

Definition sq (repr : representation) (m : mat) : Prop := rows m = dimension repr /\ cols m = dimension repr.
Lemma matrix_sq t repr : exists m, matrix t repr = Ok m /\ sq repr m.
Proof. destruct t as [a k [|]], repr; cbn [matrix kind]; try (eexists; split; [reflexivity|split; reflexivity]). Qed.
Lemma one_by_one_app ts ts' v repr : one_by_one (ts ++ ts') v repr = bind (one_by_one ts v repr) (fun w => one_by_one ts' w repr).
Proof. revert v. induction ts as [|t ts IH]; intro v; cbn; [reflexivity|]. destruct (apply1 t v repr); cbn; auto. Qed.
Lemma apply1_ok t v repr : List.length v = dimension repr -> exists w, apply1 t v repr = Ok w /\ List.length w = dimension repr.
Proof.
  intro L. destruct (matrix_sq t repr) as (m & M & R & C). unfold apply1. rewrite M. cbn [bind]. destruct (mvec_ok m v) as [w W]; [now rewrite C, L|]. exists w. split; [exact W|]. now rewrite (mvec_length _ _ _ W).
Qed.
Lemma one_by_one_ok ts v repr : List.length v = dimension repr -> exists w, one_by_one ts v repr = Ok w /\ List.length w = dimension repr.
Proof.
  revert v. induction ts as [|t ts IH]; intros v L; [exists v; split; [reflexivity|exact L]|]. cbn. destruct (apply1_ok t v repr L) as (w & -> & Lw). cbn. now apply IH.
Qed.
(** a matrix that acts as the transforms one after the other *)
Definition stands (repr : representation) (ts : list transform) (m : mat) : Prop := sq repr m /\ forall v, List.length v = dimension repr -> mvec m v = one_by_one ts v repr.
Lemma stands_matrix t repr m : matrix t repr = Ok m -> stands repr [t] m.
Proof.
  intro M. destruct (matrix_sq t repr) as (m' & M' & Q). assert (m' = m) by congruence. subst. split; [exact Q|]. intros v L. cbn. unfold apply1. rewrite M. cbn. destruct (mvec m v); reflexivity.
Qed.
Lemma stands_mmul repr ts ts' m m' : stands repr ts m -> stands repr ts' m' -> exists r, mmul m' m = Ok r /\ stands repr (ts ++ ts') r.
Proof.
  intros [[R C] A] [[R' C'] A']. destruct (mmul_ok m' m) as (r & M & Rr & Cr); [congruence|]. exists r. split; [exact M|]. split; [split; congruence|]. intros v L. rewrite one_by_one_app, <- A by exact L.
  destruct (mvec_ok m v) as [w W]; [congruence|]. rewrite W. cbn. rewrite (mvec_mmul m' m r v w) by (congruence || assumption). apply A'. rewrite (mvec_length _ _ _ W). exact R.
Qed.
Lemma stands_fold repr ts : forall done m, stands repr done m -> exists r, fold_left (fun rt t => bind rt (fun rt => bind (matrix t repr) (fun rti => mmul rti rt))) ts (Ok m) = Ok r /\ stands repr (done ++ ts) r.
Proof.
  induction ts as [|u ts IH]; intros done m St; [exists m; rewrite app_nil_r; split; [reflexivity|exact St]|]. cbn [fold_left bind]. destruct (matrix_sq u repr) as (mu & Mu & Qu). rewrite Mu. cbn [bind].
  destruct (stands_mmul repr done [u] m mu St (stands_matrix _ _ _ Mu)) as (r & -> & Sr). replace (done ++ u :: ts) with ((done ++ [u]) ++ ts) by now rewrite <- app_assoc. now apply IH.
Qed.
Lemma stands_product repr ts : (repr = Spinor -> ts <> []) -> exists m, product ts repr = Ok m /\ stands repr ts m.
Proof.
  intro H. destruct ts as [|t ts].
  - cbn. exists (Identity 4). split; [reflexivity|]. destruct repr; [exfalso; now apply H| |]; (split; [split; reflexivity|]; intros v L; cbn [dimension] in L; rewrite <- L; apply identity_mvec).
  - cbn [product]. destruct (matrix_sq t repr) as (m & M & Q). rewrite M. change (t :: ts) with ([t] ++ ts). apply stands_fold. now apply stands_matrix.
Qed.
Lemma inverse_transforms s : transforms (inverse s) = map inverse1 (rev (transforms s)) /\ forall repr, cache (inverse s) repr = product (transforms (inverse s)) repr.
Proof.
  unfold inverse. generalize (rev (transforms s)) as l. intro l. assert (G : forall rt, (forall repr, cache rt repr = product (transforms rt) repr) ->
    transforms (fold_left (fun rt t => push_back rt (inverse1 t)) l rt) = transforms rt ++ map inverse1 l /\
    forall repr, cache (fold_left (fun rt t => push_back rt (inverse1 t)) l rt) repr = product (transforms (fold_left (fun rt t => push_back rt (inverse1 t)) l rt)) repr).
  { induction l as [|t l IH]; intros rt H; cbn [fold_left map]; [rewrite app_nil_r; split; [reflexivity|exact H]|]. destruct (IH (push_back rt (inverse1 t))) as [E C]; [reflexivity|].
    split; [|exact C]. rewrite E. cbn. now rewrite <- app_assoc. }
  apply (G empty). reflexivity.
Qed.
Lemma built_stands repr s : built repr s -> (repr = Spinor -> transforms s <> []) -> exists m, cache s repr = Ok m /\ stands repr (transforms s) m.
Proof.
  induction 1 as [|t|t t'|s t B IH|s s' B IH B' IH'|s B IH|s B IH|s s' B IH B' IH' N]; intro H; try (apply stands_product; exact H).
  - cbn. destruct (matrix_sq t repr) as (m & M & _). destruct (matrix_sq t' repr) as (m' & M' & _). rewrite M, M'. cbn [bind]. apply (stands_mmul repr [t] [t']); now apply stands_matrix.
  - destruct (inverse_transforms s) as [_ C]. rewrite C. now apply stands_product.
  - cbn [join cache transforms]. destruct IH as (m & -> & Sm); [intro E; apply (N E)|]. destruct IH' as (m' & -> & Sm'); [intro E; apply (N E)|]. cbn [bind]. now apply stands_mmul.
Qed.
Lemma built_acts repr s v : built repr s -> (repr = Spinor -> transforms s <> []) -> List.length v = dimension repr -> apply s v repr = one_by_one (transforms s) v repr.
Proof. intros B H L. destruct (built_stands repr s B H) as (m & M & _ & A). unfold apply. rewrite M. cbn. now apply A. Qed.

(** ** Undoing *)
Lemma inverse1_valid t : valid t -> valid (inverse1 t).
Proof. intros [U V]. split; [|exact V]. unfold inverse1. cbn [axis]. rewrite dot3_scale, dot3_scale_r, U. ring. Qed.
Lemma inverse1_twice t : inverse1 (inverse1 t) = t.
Proof. destruct t as [a k ty]. unfold inverse1. cbn. f_equal. v3. Qed.
Lemma act_inverse t p : valid t -> act (inverse1 t) (act t p) = p.
Proof.
  intro V. pose proof V as [U A]. destruct t as [a k ty]. cbn [axis arg kind] in U, A. unfold act, inverse1. cbn [kind axis arg]. destruct ty; destruct p as [x e].
  - set (s := sqrt (a * a - 1)). assert (SS : s * s = a * a - 1) by (apply sqrt_sqrt; nra). clearbody s. unfold pushS. cbn [vect en]. rewrite !dot3_scale, !dot3_add_r, !dot3_scale_r, U. set (d := dot3 k x).
    apply p4_eq; cbn [vect en].
    + transitivity (add3 x (scale (((a - 1) * d - s * e) + (a - 1) * (d + ((a - 1) * d - s * e) * 1) + s * (a * e - s * d)) k)); [v3|].
      replace ((a - 1) * d - s * e + (a - 1) * (d + ((a - 1) * d - s * e) * 1) + s * (a * e - s * d)) with 0; [v3|]. transitivity ((a * a - 1 - s * s) * d); [rewrite SS|]; ring.
    + transitivity ((a * a - s * s) * e); [ring|]. rewrite SS. ring.
  - set (s := sqrt (1 - a * a)). assert (SS : s * s = 1 - a * a) by (apply sqrt_sqrt; nra). clearbody s. cbn [vect en]. f_equal. unfold turnCS. set (d := dot3 k x).
    assert (D : dot3 k (add3 (add3 (scale a x) (scale s (cross k x))) (scale ((1 - a) * d) k)) = d) by (rewrite !dot3_add_r, !dot3_scale_r, cross_dot_l, U; fold d; ring).
    rewrite !dot3_scale, D.
    assert (X : cross (scale (-1) k) (add3 (add3 (scale a x) (scale s (cross k x))) (scale ((1 - a) * d) k)) = add3 (scale (- a) (cross k x)) (scale (- s) (add3 (scale d k) (scale (- 1) x)))).
    { transitivity (add3 (scale (- a) (cross k x)) (scale (- s) (cross k (cross k x)))); [v3|]. rewrite cross_cross, U. reflexivity. }
    rewrite X. transitivity (add3 (scale (a * a + s * s) x) (scale ((1 - a * a - s * s) * d) k)); [v3|]. rewrite SS. v3.
Qed.
Lemma map_mul_1 l : map (cmul (cof 1)) l = l.
Proof. rewrite <- (map_id l) at 2. apply map_ext. intro a. apply cmul_1_l. Qed.
Lemma list4 (v : list cx) : List.length v = 4%nat -> exists a b c d, v = [a; b; c; d].
Proof. destruct v as [|a [|b [|c [|d [|e v]]]]]; try discriminate. eauto. Qed.
Lemma list2 (v : list cx) : List.length v = 2%nat -> exists a b, v = [a; b].
Proof. destruct v as [|a [|b [|c v]]]; try discriminate. eauto. Qed.
Lemma vec2_list (v : list cx) : List.length v = 4%nat -> exists p q, v = vec2 p q.
Proof.
  intro L. destruct (list4 v L) as (a & b & c & d & ->). exists (P4 (V3 (re a) (re b) (re c)) (re d)), (P4 (V3 (im a) (im b) (im c)) (im d)). unfold vec2. cbn [vect en vx vy vz]. now rewrite !cx_eta.
Qed.
Lemma apply1_inverse t v w repr : valid t -> List.length v = dimension repr -> apply1 t v repr = Ok w -> apply1 (inverse1 t) w repr = Ok v.
Proof.
  intros V L W. pose proof (inverse1_valid t V) as V'. destruct repr; cbn [dimension] in L.
  - destruct (list2 v L) as (a & b & ->). rewrite apply1_spinor in W. assert (E : w = [fst (spin t a b); snd (spin t a b)]) by congruence. subst w. rewrite apply1_spinor, spin_inverse, factor_1 by exact V. cbn [fst snd]. change (cof 1) with c1. now rewrite !cmul_1_l.
  - destruct (list4 v L) as (a & b & c & d & ->). rewrite apply1_bispinor in W. assert (E : w = bispin t a b c d) by congruence. subst w. pose proof (bispin_inverse t a b c d) as I. rewrite factor_1, map_mul_1 in I by exact V. rewrite <- I. unfold on4.
    destruct (apply1_ok t [a; b; c; d] Bispinor eq_refl) as (w & W' & Lw). rewrite apply1_bispinor in W'. assert (E : bispin t a b c d = w) by congruence. rewrite E. destruct (list4 w Lw) as (a' & b' & c' & d' & ->). apply apply1_bispinor.
  - destruct (vec2_list v L) as (p & q & ->). rewrite apply1_vector in W by apply V. assert (E : w = vec2 (act t p) (act t q)) by congruence. subst w. rewrite apply1_vector by apply V'. now rewrite !act_inverse.
Qed.
Lemma one_by_one_inverse ts v w repr : Forall valid ts -> List.length v = dimension repr -> one_by_one ts v repr = Ok w -> one_by_one (map inverse1 (rev ts)) w repr = Ok v.
Proof.
  intro F. revert v. induction F as [|t ts V F IH]; intros v L W; cbn in *; [congruence|]. destruct (apply1_ok t v repr L) as (u & U & Lu). rewrite U in W. cbn in W.
  rewrite map_app, one_by_one_app, (IH u Lu W). cbn. rewrite (apply1_inverse t v u) by assumption. reflexivity.
Qed.

(** ** Momenta *)
Definition p0 : p4 := P4 (V3 0 0 0) 0.
Lemma vec_vec2 p : vec p = vec2 p p0. Proof. reflexivity. Qed.
Lemma act_p0 t : act t p0 = p0.
Proof. unfold act, p0. destruct (kind t); apply p4_eq; cbn [vect en pushS]; unfold pushS, turnCS; cbn [vect en]; v3. Qed.
Lemma apply1_vec t p : valid t -> apply1 t (vec p) Vector = Ok (vec (act t p)).
Proof. intros [U _]. rewrite !vec_vec2, apply1_vector, act_p0 by exact U. reflexivity. Qed.
Lemma one_by_one_vec ts p : Forall valid ts -> one_by_one ts (vec p) Vector = Ok (vec (fold_left (fun p t => act t p) ts p)).
Proof. intro F. revert p. induction F as [|t ts V F IH]; intro p; cbn; [reflexivity|]. rewrite apply1_vec by exact V. cbn. apply IH. Qed.
Lemma vec_inj p q : vec p = vec q -> p = q.
Proof. destruct p as [[a b c] d], q as [[a' b' c'] d']. unfold vec. cbn. intro H. injection H as -> -> -> ->. reflexivity. Qed.
Lemma act_rotate t p : valid t -> kind t = Rotate -> act t p = P4 (turn1 (axis t) (acos (arg t)) (vect p)) (en p).
Proof.
  intros [U V] K. unfold act. rewrite K in *. f_equal. unfold turnCS, turn1. rewrite cos_acos, sin_acos by lra. reflexivity.
Qed.
Lemma boost_speed t : valid t -> kind t = Boost -> arg t * arg t * (1 - - sqrt (arg t * arg t - 1) / arg t * (- sqrt (arg t * arg t - 1) / arg t)) = 1.
Proof.
  intros [U V] K. rewrite K in V. set (a := arg t) in *. set (s := sqrt (a * a - 1)). assert (SS : s * s = a * a - 1) by (apply sqrt_sqrt; nra). transitivity (a * a - s * s); [field; lra|]. rewrite SS. ring.
Qed.
Lemma act_boost t p : valid t -> kind t = Boost -> act t p = push (axis t) (arg t) (- sqrt (arg t * arg t - 1) / arg t) p.
Proof.
  intros [U V] K. unfold act. rewrite K in *. unfold pushS, push. set (s := sqrt _). clearbody s. apply p4_eq; cbn [vect en]; [|field; lra]. f_equal. f_equal. field. lra.
Qed.
Lemma act_dot t p q : valid t -> dot (act t p) (act t q) = dot p q.
Proof.
  intro V. destruct (kind t) eqn:K.
  - rewrite !act_boost by assumption. apply push_dot; [apply V|]. now apply boost_speed.
  - rewrite !act_rotate by assumption. unfold dot. cbn [vect en]. now rewrite turn1_dot by apply V.
Qed.
Lemma fold_act_dot ts : Forall valid ts -> forall p q, dot (fold_left (fun p t => act t p) ts p) (fold_left (fun p t => act t p) ts q) = dot p q.
Proof. induction 1 as [|t ts V F IH]; intros p q; cbn; [reflexivity|]. rewrite IH. now apply act_dot. Qed.
(** spinors and bispinors step by step *)
Lemma spinor_steps ts : Forall valid ts -> forall a b, exists a' b', one_by_one ts [a; b] Spinor = Ok [a'; b'] /\ current a' b' = fold_left (fun p t => act t p) ts (current a b).
Proof.
  induction 1 as [|t ts V F IH]; intros a b; cbn [one_by_one fold_left]; [exists a, b; split; reflexivity|]. rewrite apply1_spinor. cbn [bind].
  destruct (IH (fst (spin t a b)) (snd (spin t a b))) as (a' & b' & E & C). exists a', b'. split; [exact E|]. rewrite C, current_half, act_halves by exact V. reflexivity.
Qed.
Lemma area_steps ts : Forall valid ts -> forall a b c d a' b' c' d', one_by_one ts [a; b] Spinor = Ok [a'; b'] -> one_by_one ts [c; d] Spinor = Ok [c'; d'] -> area a' b' c' d' = area a b c d.
Proof.
  induction 1 as [|t ts V F IH]; intros a b c d a' b' c' d'; cbn [one_by_one]; [intros H H'; injection H as <- <-; injection H' as <- <-; reflexivity|].
  rewrite !apply1_spinor. cbn [bind]. intros H H'. rewrite (IH _ _ _ _ _ _ _ _ H H'), area_half, factor_1 by exact V. apply cmul_1_l.
Qed.
Lemma slash_steps ts : Forall valid ts -> forall p a b c d a' b' c' d', one_by_one ts [a; b; c; d] Bispinor = Ok [a'; b'; c'; d'] ->
  one_by_one ts (slash p a b c d) Bispinor = Ok (slash (fold_left (fun p t => act t p) ts p) a' b' c' d').
Proof.
  induction 1 as [|t ts V F IH]; intros p a b c d a' b' c' d'; cbn [one_by_one fold_left]; [intro H; assert (E : [a; b; c; d] = [a'; b'; c'; d']) by congruence; injection E as <- <- <- <-; reflexivity|].
  destruct (apply1_ok t [a; b; c; d] Bispinor eq_refl) as (w & W & Lw). destruct (list4 w Lw) as (x & y & z & u & ->). rewrite W. cbn [bind]. intro H. rewrite <- (IH (act t p) x y z u a' b' c' d' H).
  rewrite apply1_bispinor in W. assert (E : bispin t a b c d = [x; y; z; u]) by congruence. pose proof (slash_half t p a b c d) as S'. rewrite E, factor_1, map_mul_1, act_halves in S' by exact V. unfold on4 at 2 in S'. cbn [List.nth] in S'. rewrite <- S'.
  assert (Q : apply1 t (slash p a b c d) Bispinor = Ok (on4 (bispin t) (slash p a b c d))). { unfold slash, on4. destruct (sigma (vect p) a b). destruct (sigma (vect p) c d). cbn [List.nth]. apply apply1_bispinor. }
  rewrite Q. reflexivity.
Qed.
Lemma bar_steps ts : Forall valid ts -> forall a b c d a1 b1 c1 d1 a' b' c' d' a1' b1' c1' d1', one_by_one ts [a; b; c; d] Bispinor = Ok [a'; b'; c'; d'] -> one_by_one ts [a1; b1; c1; d1] Bispinor = Ok [a1'; b1'; c1'; d1'] ->
  bar a' b' c' d' a1' b1' c1' d1' = bar a b c d a1 b1 c1 d1.
Proof.
  induction 1 as [|t ts V F IH]; intros a b c d a1 b1 c1 d1 a' b' c' d' a1' b1' c1' d1'; cbn [one_by_one].
  - intros H H'. assert (E : [a; b; c; d] = [a'; b'; c'; d']) by congruence. assert (E' : [a1; b1; c1; d1] = [a1'; b1'; c1'; d1']) by congruence. injection E as <- <- <- <-. injection E' as <- <- <- <-. reflexivity.
  - rewrite !apply1_bispinor. cbn [bind]. pose proof (bar_half t a b c d a1 b1 c1 d1) as B. rewrite factor_1 in B by exact V. change (cof 1) with Model.c1 in B. rewrite cmul_1_l in B.
    destruct (apply1_ok t [a; b; c; d] Bispinor eq_refl) as (w & W & Lw). destruct (list4 w Lw) as (x & y & z & u & ->). rewrite apply1_bispinor in W. assert (E : bispin t a b c d = [x; y; z; u]) by congruence.
    destruct (apply1_ok t [a1; b1; c1; d1] Bispinor eq_refl) as (w' & W' & Lw'). destruct (list4 w' Lw') as (x' & y' & z' & u' & ->). rewrite apply1_bispinor in W'. assert (E' : bispin t a1 b1 c1 d1 = [x'; y'; z'; u']) by congruence.
    rewrite E, E' in *. unfold on4 in B. cbn [List.nth] in B. intros H H'. rewrite (IH _ _ _ _ _ _ _ _ _ _ _ _ _ _ _ _ H H'). exact B.
Qed.
Lemma one_by_one_scale ts z : forall v w repr, List.length v = dimension repr -> one_by_one ts v repr = Ok w -> one_by_one ts (map (cmul z) v) repr = Ok (map (cmul z) w).
Proof.
  induction ts as [|t ts IH]; intros v w repr L; cbn [one_by_one]; [intro H; assert (v = w) by congruence; now subst|].
  destruct (apply1_ok t v repr L) as (u & U & Lu). rewrite U. cbn [bind]. intro W. assert (Q : apply1 t (map (cmul z) v) repr = Ok (map (cmul z) u)).
  { destruct (matrix_sq t repr) as (m & M & R & C). unfold apply1 in *. rewrite M in *. cbn [bind] in *. unfold mvec in *. rewrite map_length. destruct (cols m <=? List.length v)%nat; [|discriminate]. assert (E : u = map (fun i => csum (cols m) (fun j => cmul (ent m i j) (List.nth j v c0))) (seq 0 (rows m))) by congruence. rewrite E, map_map. f_equal. apply map_ext. intro i.
    rewrite csum_mul_l. apply csum_ext. intros j _. replace (List.nth j (map (cmul z) v) c0) with (cmul z (List.nth j v c0)); [cx|]. rewrite <- (map_nth (cmul z)). f_equal. cx. }
  rewrite Q. cbn [bind]. now apply IH.
Qed.
(** the matrix of a momentum is that of the code *)
Lemma slash_gamma p a b c d : bind (Ok (madd (mscale (cof (en p)) Gamma3) (mscale (cof (-1)) (madd (madd (mscale (cof (vx (vect p))) Gamma0) (mscale (cof (vy (vect p))) Gamma1)) (mscale (cof (vz (vect p))) Gamma2))))) (fun m => mvec m [a; b; c; d]) = Ok (slash p a b c d).
Proof.
  cbn [bind]. unfold madd at 1. cbn [rows cols mscale Gamma3 square]. rewrite mvec4. cbn [map]. unfold madd, mscale, Gamma0, Gamma1, Gamma2, Gamma3, square. cbn [ent rows cols List.nth Nat.mul Nat.add].
  unfold slash, sigma. f_equal. do 4 (apply (f_equal2 cons); [cx|]). reflexivity.
Qed.

(** ** To the rest frame *)
Lemma eps_pos : 0 < / 10 ^ 15.
Proof. apply Rinv_0_lt_compat. apply pow_lt. lra. Qed.
(** the polar angle and the azimuth *)
Lemma wick_angles P : away (pT2 P) -> away (dot3 (vect P) (vect P)) -> let p := mag (vect P) in let pT := sqrt (pT2 P) in
  let px := vx (vect P) in let py := vy (vect P) in let pz := vz (vect P) in
  let ct := if Rlt_dec (/ 10 ^ 15) (px * px + py * py + pz * pz) then pz / sqrt (px * px + py * py + pz * pz) else 1 in
  let cp := if Rlt_dec (/ 10 ^ 15) (px * px + py * py) then px / sqrt (px * px + py * py) else 1 in
  let sp := if Rlt_dec (/ 10 ^ 15) (px * px + py * py) then py / sqrt (px * px + py * py) else 0 in
  cp * cp + sp * sp = 1 /\ -1 <= ct <= 1 /\ px = pT * cp /\ py = pT * sp /\ pz = p * ct /\ pT = p * sqrt (1 - ct * ct).
Proof.
  intros HT HP. unfold away in HT, HP. cbn zeta. change (vx (vect P) * vx (vect P) + vy (vect P) * vy (vect P) + vz (vect P) * vz (vect P)) with (dot3 (vect P) (vect P)). change (sqrt (dot3 (vect P) (vect P))) with (mag (vect P)). fold (pT2 P).
  pose proof eps_pos as Ep. set (eps := / 10 ^ 15) in *. clearbody eps. set (x := vx (vect P)) in *. set (y := vy (vect P)) in *. set (z := vz (vect P)) in *. pose proof (mag_sq (vect P)) as MM. set (p := mag (vect P)) in *.
  assert (Dp : dot3 (vect P) (vect P) = x * x + y * y + z * z) by reflexivity. assert (DT : pT2 P = x * x + y * y) by reflexivity. assert (Tn : 0 <= pT2 P) by (rewrite DT; nra). pose proof (sqrt_sqrt (pT2 P) Tn) as TT. pose proof (sqrt_pos (pT2 P)) as Tp. set (q := sqrt (pT2 P)) in *.
  assert (Pp : 0 <= p) by apply sqrt_pos. clearbody p q x y z.
  assert (A1 : exists cp sp, (if Rlt_dec eps (pT2 P) then x / q else 1) = cp /\ (if Rlt_dec eps (pT2 P) then y / q else 0) = sp /\ cp * cp + sp * sp = 1 /\ x = q * cp /\ y = q * sp).
  { destruct (Rlt_dec eps (pT2 P)) as [L|L].
    - assert (Q : q <> 0) by (intro E; rewrite E in TT; lra). exists (x / q), (y / q). split; [reflexivity|]. split; [reflexivity|]. split; [|split; field; exact Q]. transitivity ((x * x + y * y) / (q * q)); [field; exact Q|]. rewrite TT, <- DT. field. lra.
    - destruct HT as [Z|Z]; [|contradiction]. assert (Q : q = 0) by nra. assert (x = 0) by nra. assert (y = 0) by nra. exists 1, 0. subst. repeat split; ring. }
  destruct A1 as (cp & sp & -> & -> & U & X & Y). split; [exact U|]. destruct (Rlt_dec eps (dot3 (vect P) (vect P))) as [L|L].
  - assert (Q : 0 < p) by (destruct (Rle_lt_or_eq_dec _ _ Pp) as [G|G]; [exact G|exfalso; rewrite <- G in MM; lra]). assert (Z2 : z / p * (z / p) = 1 - q * q / (p * p)) by (replace (q * q) with (p * p - z * z) by lra; field; lra).
    assert (W : 0 <= q * q / (p * p)). { apply Rmult_le_pos; [nra|]. left. apply Rinv_0_lt_compat. nra. }
    assert (B : -1 <= z / p <= 1) by (split; nra). split; [exact B|]. split; [exact X|]. split; [exact Y|]. split; [field; lra|]. replace (1 - z / p * (z / p)) with (q / p * (q / p)).
    + rewrite sqrt_square; [field; lra|]. apply Rmult_le_pos; [exact Tp|]. left. now apply Rinv_0_lt_compat.
    + rewrite Z2. field. lra.
  - destruct HP as [Z|Z]; [|contradiction]. rewrite Z in MM. assert (Q : p = 0) by nra. assert (z = 0) by nra. assert (q = 0) by nra. subst p z q. split; [lra|]. split; [exact X|]. split; [exact Y|]. split; ring.
Qed.
Lemma wick_act P mass2 ve : ve = 1%Z \/ ve = (-1)%Z -> away (pT2 P) -> away (dot3 (vect P) (vect P)) ->
  forall boosts, (boosts = true -> 0 < mass2 /\ mass2 = dot P P /\ 0 < en P) ->
  built Vector (wick P mass2 boosts ve) /\ Forall valid (transforms (wick P mass2 boosts ve)) /\
  fold_left (fun p t => act t p) (transforms (wick P mass2 boosts ve)) P = if boosts then P4 (V3 0 0 0) (sqrt mass2) else P4 (V3 0 0 (mag (vect P))) (en P).
Proof.
  intros Hve HT HP boosts HB. destruct (wick_angles P HT HP) as (U & B & X & Y & Z & T). unfold wick. cbv zeta.
  set (ct := if Rlt_dec _ _ then vz (vect P) / _ else 1) in *. set (cp := if Rlt_dec _ _ then vx (vect P) / _ else 1) in *. set (sp := if Rlt_dec _ _ then vy (vect P) / _ else 0) in *. set (pT := sqrt (pT2 P)) in *. set (p := mag (vect P)) in *.
  set (st := sqrt (1 - ct * ct)) in *. assert (SS : st * st = 1 - ct * ct) by (apply sqrt_sqrt; nra). assert (St' : sqrt (1 - - ct * - ct) = st) by (unfold st; f_equal; ring). assert (P0 : 0 <= p) by apply sqrt_pos. pose proof (mag_sq (vect P)) as MM. fold p in MM. 
  set (s := if (ve =? -1)%Z then _ else _).
  assert (R : built Vector s /\ Forall valid (transforms s) /\ fold_left (fun p t => act t p) (transforms s) P = P4 (V3 0 0 p) (en P)).
  { destruct P as [[x y z] e]. cbn [vect en vx vy vz] in *. destruct Hve as [-> | ->]; cbn in s; unfold s; cbn [transforms of_transform push_back buildCache app fold_left].
    - split; [constructor|]. split.
      + constructor; [|constructor]. split; cbn [axis kind arg]; [|exact B]. unfold dot3, add3, scale. cbn [vx vy vz]. lra.
      + unfold act. cbn [kind axis arg vect en]. fold st. unfold turnCS. apply p4_eq; cbn [vect en]; [|reflexivity]. apply v3_eq; unfold add3, scale, cross, dot3; cbn [vx vy vz].
        * transitivity ((pT * ct - st * z) * cp + (1 - ct) * (sp * x - cp * y) * sp); [rewrite X at 1; ring|]. rewrite X, Y, T, Z. ring.
        * transitivity ((pT * ct - st * z) * sp - (1 - ct) * (sp * x - cp * y) * cp); [rewrite Y at 1; ring|]. rewrite X, Y, T, Z. ring.
        * transitivity (ct * z + st * (sp * y + cp * x)); [ring|]. rewrite X, Y. transitivity (ct * z + st * pT * (cp * cp + sp * sp)); [ring|]. rewrite U, T, Z. transitivity (p * (ct * ct + st * st)); [ring|]. rewrite SS. ring.
    - split; [do 2 constructor|]. split.
      + constructor; [|constructor; [|constructor]]; split; cbn [axis kind arg]; try lra; unfold dot3, add3, scale; cbn [vx vy vz]; lra.
      + unfold act at 2. cbn [kind axis arg vect en]. rewrite St'. unfold turnCS. set (v := add3 _ _). assert (V : v = V3 0 0 (- p)).
        { apply v3_eq; unfold v, add3, scale, cross, dot3; cbn [vx vy vz].
          * transitivity (- (pT * ct - st * z) * cp + (1 + ct) * (sp * x - cp * y) * sp); [rewrite X at 1; ring|]. rewrite X, Y, T, Z. ring.
          * transitivity (- (pT * ct - st * z) * sp - (1 + ct) * (sp * x - cp * y) * cp); [rewrite Y at 1; ring|]. rewrite X, Y, T, Z. ring.
          * transitivity (- (ct * z + st * (sp * y + cp * x))); [ring|]. rewrite X, Y. transitivity (- (ct * z + st * pT * (cp * cp + sp * sp))); [ring|]. rewrite U, T, Z. transitivity (- (p * (ct * ct + st * st))); [ring|]. rewrite SS. ring. }
        rewrite V. unfold act. cbn [kind axis arg vect en]. replace (1 - -1 * -1) with 0 by ring. rewrite sqrt_0. unfold turnCS. apply p4_eq; cbn [vect en]; [|reflexivity]. v3. }
  clearbody s. destruct R as (Bs & Fs & Es). destruct boosts; [|now repeat split].
  destruct (HB eq_refl) as (Mp & Em & Ep). set (m := sqrt mass2). assert (Mm : 0 < m) by now apply sqrt_lt_R0. assert (M2 : m * m = mass2) by (apply sqrt_sqrt; lra).
  assert (E2 : en P * en P = m * m + p * p) by (rewrite M2, Em, MM; unfold dot; ring). assert (G : 1 <= en P / m). { apply Rmult_le_reg_r with m; [exact Mm|]. unfold Rdiv. rewrite Rmult_assoc, Rinv_l by lra. nra. }
  split; [constructor; [exact Bs|constructor|discriminate]|]. cbn [join transforms of_transform buildCache]. split.
  - apply Forall_app. split; [exact Fs|]. constructor; [|constructor]. split; cbn [axis kind arg]; [unfold dot3; cbn [vx vy vz]; ring|exact G].
  - rewrite fold_left_app, Es. cbn [fold_left]. unfold act. cbn [kind axis arg]. assert (SQ : sqrt (en P / m * (en P / m) - 1) = p / m).
    { replace (en P / m * (en P / m) - 1) with (p / m * (p / m)). { apply sqrt_square. apply Rmult_le_pos; [exact P0|]. left. now apply Rinv_0_lt_compat. }
      replace (en P / m * (en P / m)) with (en P * en P / (m * m)) by (field; lra). rewrite E2. field. lra. }
    rewrite SQ. unfold pushS. cbn [vect en]. apply p4_eq; cbn [vect en].
    + apply v3_eq; unfold add3, scale, dot3; cbn [vx vy vz]; field; lra.
    + unfold dot3. cbn [vx vy vz]. transitivity ((en P * en P - p * p) / m); [field; lra|]. rewrite E2. field. lra.
Qed.
