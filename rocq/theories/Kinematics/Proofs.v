From Verif.Common Require Import Prelude.
From Coq Require Import Reals Lra Lia Psatz Nsatz.
From Verif.Events Require Model.
From Verif.Kinematics Require Import Model Spec.
Local Open Scope R_scope.

(** ** Vectors *)
Lemma v3_eq a b : vx a = vx b -> vy a = vy b -> vz a = vz b -> a = b.
Proof. destruct a, b. cbn. intros -> -> ->. reflexivity. Qed.
Ltac v3 := try apply v3_eq; unfold dot3, cross, add3, scale, across; cbn [vx vy vz vect en]; try ring.
Lemma dot3_comm a b : dot3 a b = dot3 b a. Proof. v3. Qed.
Lemma dot3_add a b c : dot3 (add3 a b) c = dot3 a c + dot3 b c. Proof. v3. Qed.
Lemma dot3_scale s a b : dot3 (scale s a) b = s * dot3 a b. Proof. v3. Qed.
Lemma dot3_add_r a b c : dot3 c (add3 a b) = dot3 c a + dot3 c b. Proof. v3. Qed.
Lemma dot3_scale_r s a b : dot3 b (scale s a) = s * dot3 b a. Proof. v3. Qed.
Lemma dot3_pos a : 0 <= dot3 a a. Proof. unfold dot3. nra. Qed.
Lemma dot3_zero a : dot3 a a = 0 -> a = V3 0 0 0.
Proof. destruct a as [x y z]. unfold dot3. cbn. intro H. assert (x = 0) by nra. assert (y = 0) by nra. assert (z = 0) by nra. now subst. Qed.
Lemma lagrange a b : dot3 (cross a b) (cross a b) = dot3 a a * dot3 b b - dot3 a b * dot3 a b. Proof. v3. Qed.
Lemma mag_sq a : mag a * mag a = dot3 a a. Proof. apply sqrt_sqrt, dot3_pos. Qed.
Lemma mag_pos a : dot3 a a <> 0 -> 0 < mag a. Proof. intro H. apply sqrt_lt_R0. pose proof (dot3_pos a). lra. Qed.

Definition dir (n : v3) : v3 := scale (/ sqrt (dot3 n n)) n.
Lemma norm_pos n : dot3 n n <> 0 -> 0 < sqrt (dot3 n n).
Proof. intro H. apply sqrt_lt_R0. pose proof (dot3_pos n). lra. Qed.
Lemma dir_unit n : dot3 n n <> 0 -> dot3 (dir n) (dir n) = 1.
Proof.
  intro H. pose proof (norm_pos n H) as P. pose proof (mag_sq n) as E. unfold mag in E. unfold dir. rewrite dot3_scale, dot3_scale_r. rewrite <- E at 3. field. lra.
Qed.
Lemma dir_direction n : dot3 n n <> 0 -> direction n (dir n).
Proof.
  intro H. pose proof (norm_pos n H). split; [now apply dir_unit|]. exists (sqrt (dot3 n n)). split; [assumption|]. unfold dir. v3; field; unfold dot3 in *; lra.
Qed.
Lemma direction_unique n u : direction n u -> dot3 n n <> 0 /\ u = dir n.
Proof.
  intros (U & c & Hc & ->). assert (E : dot3 (scale c u) (scale c u) = c * c) by (rewrite dot3_scale, dot3_scale_r, U; ring). rewrite E. split; [nra|].
  unfold dir. rewrite E, sqrt_square by lra. v3; field; lra.
Qed.

(** ** Boosts *)
Definition gam (v : R) : R := 1 / sqrt (1 - v * v).
Lemma gam_ok v : v * v < 1 -> 0 < gam v /\ gam v * gam v * (1 - v * v) = 1.
Proof.
  intro H. unfold gam. assert (P : 0 < sqrt (1 - v * v)) by (apply sqrt_lt_R0; lra). split; [apply Rdiv_lt_0_compat; lra|].
  assert (E : sqrt (1 - v * v) * sqrt (1 - v * v) = 1 - v * v) by (apply sqrt_sqrt; lra). set (r := sqrt (1 - v * v)) in *. rewrite <- E. field. lra.
Qed.
Definition push (u : v3) (g v : R) (p : p4) : p4 :=
  P4 (add3 (vect p) (scale ((g - 1) * dot3 u (vect p) + g * en p * v) u)) (g * (en p + v * dot3 u (vect p))).
Lemma boost1_push n v p : dot3 n n <> 0 -> boost1 n v p = push (dir n) (gam v) v p.
Proof.
  intro H. pose proof (norm_pos n H) as P. destruct p as [[x y z] e], n as [a b c]. unfold boost1, push, dir. cbn [vect en vx vy vz]. fold (gam v).
  change (sqrt (a * a + b * b + c * c)) with (sqrt (dot3 (V3 a b c) (V3 a b c))). set (N := sqrt (dot3 (V3 a b c) (V3 a b c))) in *. clearbody N.
  f_equal; [apply v3_eq|]; unfold add3, scale, dot3; cbn [vx vy vz]; field; lra.
Qed.
Lemma push_dot u g v p q : dot3 u u = 1 -> g * g * (1 - v * v) = 1 -> dot (push u g v p) (push u g v q) = dot p q.
Proof.
  intros U G. unfold dot, push. cbn [vect en]. rewrite !dot3_add, !dot3_add_r, !dot3_scale, !dot3_scale_r, U, (dot3_comm (vect p) u). set (a := dot3 u (vect p)). set (b := dot3 u (vect q)).
  transitivity (en p * en q - dot3 (vect p) (vect q) + (g * g * (1 - v * v) - 1) * (en p * en q - a * b)); [ring|]. rewrite G. ring.
Qed.
Lemma push_boosted u g v p : dot3 u u = 1 -> 0 < g -> g * g * (1 - v * v) = 1 -> boosted u v p (push u g v p).
Proof.
  intros U Gp G. exists g. split; [exact Gp|]. split; [exact G|]. unfold push. cbn [vect en]. split; [ring|]. rewrite dot3_add_r, dot3_scale_r, U. split; [ring|].
  unfold across. rewrite dot3_add_r, dot3_scale_r, U. v3.
Qed.
Lemma push_add u g v p q : push u g v (add4 p q) = add4 (push u g v p) (push u g v q).
Proof. destruct p as [[a b c] d], q as [[a' b' c'] d']. unfold push, add4. cbn [vect en]. f_equal; v3. Qed.
Lemma push_back u g v p : dot3 u u = 1 -> g * g * (1 - v * v) = 1 -> push u g (- v) (push u g v p) = p.
Proof.
  intros U G. destruct p as [a e]. unfold push. cbn [vect en]. rewrite dot3_add_r, dot3_scale_r, U. set (k := dot3 u a).
  assert (E : (g - 1) * (k + ((g - 1) * k + g * e * v) * 1) + g * (g * (e + v * k)) * - v = - ((g - 1) * k + g * e * v)).
  { transitivity ((g * g * (1 - v * v) - 1) * k - ((g - 1) * k + g * e * v)); [ring|]. rewrite G. ring. }
  rewrite E. f_equal; [destruct a; v3|].
  transitivity (g * g * (1 - v * v) * e); [ring|]. rewrite G. ring.
Qed.
(** bringing a particle to rest *)
Lemma rest_exists p : dot3 (vect p) (vect p) < en p * en p -> 0 < en p -> exists n v, dot3 n n <> 0 /\ v * v < 1 /\ at_rest (boost1 n v p).
Proof.
  intros T E. destruct (Req_EM_T (dot3 (vect p) (vect p)) 0) as [Z|N].
  - exists (V3 1 0 0), 0. split; [unfold dot3; cbn; lra|]. split; [lra|]. unfold at_rest. rewrite boost1_push by (unfold dot3; cbn; lra). unfold push. cbn [vect].
    rewrite (dot3_zero _ Z). assert (G : gam 0 = 1). { unfold gam. replace (1 - 0 * 0) with 1 by ring. rewrite sqrt_1. field. } rewrite G. unfold dir. v3.
  - set (m := sqrt (dot3 (vect p) (vect p))). assert (M : 0 < m) by now apply norm_pos. assert (MM : m * m = dot3 (vect p) (vect p)) by (apply sqrt_sqrt; apply dot3_pos).
    exists (scale (-1) (vect p)), (m / en p). assert (H : dot3 (scale (-1) (vect p)) (scale (-1) (vect p)) = m * m) by (rewrite dot3_scale, dot3_scale_r; lra).
    split; [rewrite H; nra|]. assert (V : m / en p * (m / en p) < 1).
    { replace (m / en p * (m / en p)) with (m * m / (en p * en p)) by (field; lra). apply Rmult_lt_reg_r with (en p * en p); [nra|]. unfold Rdiv. rewrite Rmult_assoc, Rinv_l by nra. lra. }
    split; [exact V|]. unfold at_rest. rewrite boost1_push by (rewrite H; nra). unfold push, dir. cbn [vect]. rewrite H, sqrt_square by lra.
    rewrite !dot3_scale, <- MM. apply v3_eq; unfold add3, scale; cbn [vx vy vz]; field; lra.
Qed.

(** ** Turns *)
Definition turn1 (u : v3) (a : R) (x : v3) : v3 := add3 (add3 (scale (cos a) x) (scale (sin a) (cross u x))) (scale ((1 - cos a) * dot3 u x) u).
Lemma rotate1_turn n a p : dot3 n n <> 0 -> rotate1 n a p = P4 (turn1 (dir n) a (vect p)) (en p).
Proof.
  intro H. pose proof (norm_pos n H) as P. destruct p as [[x y z] e], n as [i j k]. unfold rotate1, turn1, dir. cbn [vect en vx vy vz].
  change (sqrt (i * i + j * j + k * k)) with (sqrt (dot3 (V3 i j k) (V3 i j k))). set (N := sqrt (dot3 (V3 i j k) (V3 i j k))) in *. clearbody N.
  f_equal. apply v3_eq; unfold add3, scale, dot3, cross; cbn [vx vy vz]; field; lra.
Qed.
Lemma cs a : sin a * sin a = 1 - cos a * cos a.
Proof. pose proof (sin2_cos2 a) as H. unfold Rsqr in H. lra. Qed.
Lemma cross_dot_l a b : dot3 a (cross a b) = 0. Proof. v3. Qed.
Lemma cross_dot_l' a b : dot3 (cross a b) a = 0. Proof. v3. Qed.
Lemma cross_dot_r a b : dot3 b (cross a b) = 0. Proof. v3. Qed.
Lemma cross_dot a b c d : dot3 (cross a b) (cross c d) = dot3 a c * dot3 b d - dot3 a d * dot3 b c. Proof. v3. Qed.
Lemma triple_swap u a b : dot3 a (cross u b) = - dot3 b (cross u a). Proof. v3. Qed.
Lemma cross_cross u b : cross u (cross u b) = add3 (scale (dot3 u b) u) (scale (- dot3 u u) b). Proof. v3. Qed.
Lemma turn1_dot u a x y : dot3 u u = 1 -> dot3 (turn1 u a x) (turn1 u a y) = dot3 x y.
Proof.
  intro U. unfold turn1. rewrite !dot3_add, !dot3_add_r, !dot3_scale, !dot3_scale_r. rewrite cross_dot, U, cross_dot_l, (dot3_comm (cross u x) u), cross_dot_l, (dot3_comm (cross u x) y), (triple_swap u x y), (dot3_comm x u).
  set (p := dot3 u x). set (q := dot3 u y). set (t := dot3 y (cross u x)). pose proof (cs a) as C.
  transitivity ((cos a * cos a + sin a * sin a) * dot3 x y + (1 - cos a * cos a - sin a * sin a) * p * q); [ring|]. rewrite C. ring.
Qed.
Lemma turn1_axis u a x : dot3 u u = 1 -> dot3 u (turn1 u a x) = dot3 u x.
Proof. intro U. unfold turn1. rewrite !dot3_add_r, !dot3_scale_r, cross_dot_l, U. ring. Qed.
Lemma turn1_turned u a x : dot3 u u = 1 -> turned u a x (turn1 u a x).
Proof.
  intro U. pose proof (turn1_axis u a x U) as A. split; [exact A|].
  set (w := across u x). assert (W : dot3 u w = 0) by (unfold w, across; rewrite dot3_add_r, dot3_scale_r, U; ring).
  assert (E : across u (turn1 u a x) = add3 (scale (cos a) w) (scale (sin a) (cross u w))).
  { unfold across at 1. rewrite A. unfold w, turn1, across. v3. }
  rewrite E. split.
  - rewrite dot3_add_r, !dot3_scale_r, cross_dot_r. ring.
  - transitivity (scale (sin a) (cross w (cross u w))); [v3|]. assert (X : cross w (cross u w) = add3 (scale (dot3 w w) u) (scale (- dot3 u w) w)) by v3. rewrite X, W. v3.
Qed.
Lemma turn1_compose u a b x : dot3 u u = 1 -> turn1 u b (turn1 u a x) = turn1 u (a + b) x.
Proof.
  intro U. unfold turn1 at 1. rewrite (turn1_axis u a x U). unfold turn1. rewrite cos_plus, sin_plus.
  assert (X : cross u (add3 (add3 (scale (cos a) x) (scale (sin a) (cross u x))) (scale ((1 - cos a) * dot3 u x) u)) =
    add3 (scale (cos a) (cross u x)) (scale (sin a) (add3 (scale (dot3 u x) u) (scale (- dot3 u u) x)))) by v3.
  rewrite X, U. v3.
Qed.
Lemma turn1_zero u x : turn1 u 0 x = x.
Proof. unfold turn1. rewrite cos_0, sin_0. v3. Qed.
Lemma turn1_cross u a x y : dot3 u u = 1 -> cross (turn1 u a x) (turn1 u a y) = turn1 u a (cross x y).
Proof.
  intro U. destruct x as [x1 x2 x3], y as [y1 y2 y3], u as [p q r]. unfold dot3 in U. cbn in U. pose proof (cs a) as C. set (c := cos a) in *. set (s := sin a) in *. unfold turn1. fold c. fold s. clearbody c s.
  assert (R2 : r * r = 1 - p * p - q * q) by lra.
  apply v3_eq; unfold cross, add3, scale, dot3; cbn [vx vy vz]; nsatz.
Qed.

(** ** Events *)
Lemma particle_step x y z e r i : particle (x :: y :: z :: e :: r) (S i) = particle r i.
Proof. unfold particle. replace (4 * S i)%nat with (S (S (S (S (4 * i))))) by lia. reflexivity. Qed.
Lemma particle_each f evt : forall i, particle (each f evt) i = option_map f (particle evt i).
Proof.
  induction evt as [evt IH] using (well_founded_induction (Wf_nat.well_founded_ltof _ (@length R))). intro i.
  destruct evt as [|x [|y [|z [|e r]]]]; try (destruct i as [|i]; [reflexivity|]; unfold particle; replace (4 * S i)%nat with (S (S (S (S (4 * i))))) by lia; cbn [each skipn]; try rewrite skipn_nil; reflexivity).
  destruct i as [|i]; cbn [each]; [unfold particle; cbn [skipn Nat.mul Nat.add option_map]; destruct (f _) as [[a b c] d]; reflexivity|].
  rewrite !particle_step. apply IH. unfold Wf_nat.ltof. cbn. lia.
Qed.
Lemma each_ext f g evt : (forall p, f p = g p) -> each f evt = each g evt.
Proof.
  intro H. induction evt as [evt IH] using (well_founded_induction (Wf_nat.well_founded_ltof _ (@length R))). destruct evt as [|x [|y [|z [|e r]]]]; try reflexivity.
  cbn [each]. rewrite H, IH; [reflexivity|]. unfold Wf_nat.ltof. cbn. lia.
Qed.
Lemma each_each f g evt : each g (each f evt) = each (fun p => g (f p)) evt.
Proof.
  induction evt as [evt IH] using (well_founded_induction (Wf_nat.well_founded_ltof _ (@length R))). destruct evt as [|x [|y [|z [|e r]]]]; try reflexivity.
  cbn [each]. rewrite IH by (unfold Wf_nat.ltof; cbn; lia). destruct (f (P4 (V3 x y z) e)) as [[? ? ?] ?]. reflexivity.
Qed.
Lemma each_id f evt : (forall p, f p = p) -> each f evt = evt.
Proof.
  intro H. induction evt as [evt IH] using (well_founded_induction (Wf_nat.well_founded_ltof _ (@length R))). destruct evt as [|x [|y [|z [|e r]]]]; try reflexivity.
  cbn [each]. rewrite H, IH; [reflexivity|]. unfold Wf_nat.ltof. cbn. lia.
Qed.
Lemma each_length f evt : length (each f evt) = length evt.
Proof.
  induction evt as [evt IH] using (well_founded_induction (Wf_nat.well_founded_ltof _ (@length R))). destruct evt as [|x [|y [|z [|e r]]]]; try reflexivity.
  cbn [each length]. rewrite IH; [reflexivity|]. unfold Wf_nat.ltof. cbn. lia.
Qed.
Lemma nth_skipn {A} (l : list A) n k : nth_error (skipn n l) k = nth_error l (n + k).
Proof. revert l. induction n as [|n IH]; intro l; [reflexivity|]. destruct l; [now destruct k|]. apply IH. Qed.
Lemma block_particle evt i p : particle evt i = Some p -> Events.Model.block R evt i = Ok (vx (vect p), vy (vect p), vz (vect p), en p).
Proof.
  unfold particle. intro H. unfold Events.Model.block, Events.Model.get. rewrite <- (Nat.add_0_r (4 * i)) at 1. rewrite <- !nth_skipn.
  destruct (skipn (4 * i) evt) as [|x [|y [|z [|e r]]]]; try discriminate. injection H as <-. reflexivity.
Qed.
Lemma pFromEvent1_particle evt i p : particle evt i = Some p -> pFromEvent1 evt i = Ok p.
Proof. intro H. unfold pFromEvent1. rewrite (block_particle _ _ _ H). destruct p as [[? ? ?] ?]. reflexivity. Qed.
Lemma p4_eq p q : vect p = vect q -> en p = en q -> p = q.
Proof. destruct p, q. cbn. now intros -> ->. Qed.
Lemma add4_assoc p q r : add4 (add4 p q) r = add4 p (add4 q r).
Proof. unfold add4. cbn [vect en]. f_equal; v3. Qed.
Lemma add4_0 p : add4 p (P4 (V3 0 0 0) 0) = p.
Proof. destruct p as [[? ? ?] ?]. apply p4_eq; cbn; [v3|ring]. Qed.
Lemma add4_0l p : add4 (P4 (V3 0 0 0) 0) p = p.
Proof. destruct p as [[? ? ?] ?]. apply p4_eq; cbn; [v3|ring]. Qed.
Lemma pFromEvent_total evt l ps : listed evt l ps -> pFromEvent evt l = Ok (total ps).
Proof.
  intro H. unfold pFromEvent. enough (G : forall acc, pFromEvent_from evt l acc = Ok (add4 acc (total ps))) by (rewrite G, add4_0l; reflexivity).
  induction H as [|i p l ps Hp H IH]; intro acc; cbn; [now rewrite add4_0|]. rewrite (pFromEvent1_particle _ _ _ Hp). cbn. rewrite IH, add4_assoc. reflexivity.
Qed.
Lemma sum4_total evt l ps : listed evt l ps -> forall a b c d, Events.Model.sum4 R Rplus evt l (a, b, c, d) =
  Ok (a + vx (vect (total ps)), b + vy (vect (total ps)), c + vz (vect (total ps)), d + en (total ps)).
Proof.
  induction 1 as [|i p l ps Hp H IH]; intros a b c d; cbn.
  - now rewrite !Rplus_0_r.
  - rewrite (block_particle _ _ _ Hp). cbn. rewrite IH. rewrite !Rplus_assoc. reflexivity.
Qed.
Lemma s_of_total evt l ps : listed evt l ps -> s_of evt l = Ok (dot (total ps) (total ps)).
Proof.
  intro H. assert (D : forall p, dot p p = en p * en p - vx (vect p) * vx (vect p) - vy (vect p) * vy (vect p) - vz (vect p) * vz (vect p)) by (intro; unfold dot, dot3; ring).
  assert (G : bind (Events.Model.sum4 R Rplus evt l (0, 0, 0, 0)) (fun '(px, py, pz, E) => Ok (E * E - px * px - py * py - pz * pz)) = Ok (dot (total ps) (total ps))).
  { rewrite (sum4_total _ _ _ H). cbn [bind]. rewrite D, !Rplus_0_l. reflexivity. }
  unfold s_of. destruct H as [|i p l ps Hp H]; [exact G|]. destruct H as [|j q l ps Hq H]; [exact G|]. destruct H as [|k r l ps Hr H].
  - cbn [Events.Model.s_all]. unfold Events.Model.s2. rewrite (block_particle _ _ _ Hp), (block_particle _ _ _ Hq). cbn [bind total]. rewrite add4_0, D. reflexivity.
  - destruct H as [|m s l ps Hs H]; [|exact G]. cbn [Events.Model.s_all]. unfold Events.Model.s3. rewrite (block_particle _ _ _ Hp), (block_particle _ _ _ Hq), (block_particle _ _ _ Hr). cbn [bind total].
    rewrite add4_0, <- add4_assoc, D. reflexivity.
Qed.
Lemma listed_each f evt l ps : listed evt l ps -> listed (each f evt) l (map f ps).
Proof. induction 1 as [|i p l ps Hp H IH]; constructor; [rewrite particle_each, Hp; reflexivity|exact IH]. Qed.
Lemma listed_app evt l l' ps ps' : listed evt l ps -> listed evt l' ps' -> listed evt (l ++ l') (ps ++ ps').
Proof. apply Forall2_app. Qed.
Lemma total_app ps qs : total (ps ++ qs) = add4 (total ps) (total qs).
Proof. induction ps as [|p ps IH]; cbn; [now rewrite add4_0l|]. now rewrite IH, add4_assoc. Qed.
Lemma push_zero u g v : push u g v (P4 (V3 0 0 0) 0) = P4 (V3 0 0 0) 0.
Proof. unfold push. apply p4_eq; cbn [vect en]; v3. Qed.
Lemma push_total u g v ps : push u g v (total ps) = total (map (push u g v) ps).
Proof. induction ps as [|p ps IH]; cbn; [apply push_zero|]. now rewrite push_add, IH. Qed.

(** ** Angles and momenta in a rest frame *)
Lemma dotProduct_rest u g v p q X : dot3 u u = 1 -> g * g * (1 - v * v) = 1 -> at_rest (push u g v X) -> dot X X <> 0 ->
  dotProduct p q X = Ok (dot3 (vect (push u g v p)) (vect (push u g v q))).
Proof.
  intros U G A N. unfold dotProduct. destruct (Req_EM_T (dot X X) 0) as [E|_]; [contradiction|]. f_equal.
  rewrite <- (push_dot u g v p q U G), <- (push_dot u g v p X U G), <- (push_dot u g v q X U G). rewrite <- (push_dot u g v X X U G) in N |- *.
  unfold at_rest in A. unfold dot in *. rewrite A in *. unfold dot3 in N |- * . cbn [vx vy vz] in *. field. intro Z. apply N. rewrite Z. ring.
Qed.
Lemma sqrt_prod a b : 0 <= a -> 0 <= b -> sqrt (a * b) = sqrt a * sqrt b.
Proof. intros. now apply sqrt_mult. Qed.
Lemma mag_ne a : dot3 a a <> 0 <-> 0 < dot3 a a.
Proof. pose proof (dot3_pos a). lra. Qed.
Lemma helicity_rest evt i j r pi pj pr n v : listed evt i pi -> listed evt j pj -> listed evt r pr -> dot3 n n <> 0 -> v * v < 1 ->
  at_rest (boost1 n v (total pr)) -> dot (total pr) (total pr) <> 0 ->
  let a := vect (boost1 n v (total pi)) in let b := vect (boost1 n v (total pj)) in dot3 a a <> 0 -> dot3 b b <> 0 ->
  helicityCosine i j r evt = Ok (dot3 a b / (mag a * mag b)).
Proof.
  intros Hi Hj Hr Hn Hv A N a b Ha Hb. destruct (gam_ok v Hv) as [Gp G]. pose proof (dir_unit n Hn) as U. unfold helicityCosine. rewrite (pFromEvent_total _ _ _ Hi), (pFromEvent_total _ _ _ Hj), (pFromEvent_total _ _ _ Hr). cbn [bind].
  subst a b. rewrite (boost1_push n v (total pi)) in Ha |- * by exact Hn. rewrite (boost1_push n v (total pj)) in Hb |- * by exact Hn. rewrite (boost1_push n v (total pr)) in A by exact Hn.

  rewrite !(dotProduct_rest (dir n) (gam v) v) by assumption. cbn [bind]. apply mag_ne in Ha, Hb.
  destruct (Rlt_dec _ _) as [L|L]; [|exfalso; apply L; now apply Rmult_lt_0_compat]. unfold mag. rewrite sqrt_prod by lra. reflexivity.
Qed.
Lemma transfer_rest evt l1 l2 ps1 ps2 n v : listed evt l1 ps1 -> listed evt l2 ps2 -> dot3 n n <> 0 -> v * v < 1 ->
  at_rest (boost1 n v (add4 (total ps1) (total ps2))) -> dot (add4 (total ps1) (total ps2)) (add4 (total ps1) (total ps2)) <> 0 ->
  momentumTransfer l1 l2 evt = Ok (mag (vect (boost1 n v (total ps1)))) /\ mag (vect (boost1 n v (total ps1))) = mag (vect (boost1 n v (total ps2))).
Proof.
  intros H1 H2 Hn Hv A N. destruct (gam_ok v Hv) as [Gp G]. pose proof (dir_unit n Hn) as U. rewrite boost1_push in A by exact Hn. rewrite !boost1_push by exact Hn.
  set (f := push (dir n) (gam v) v) in *. assert (D : forall p q, dot (f p) (f q) = dot p q) by (intros; now apply push_dot). unfold at_rest in A. unfold f in A. rewrite push_add in A. fold f in A.
  assert (F : forall p q, f (add4 p q) = add4 (f p) (f q)) by (intros; apply push_add). rewrite <- D, F in N.
  unfold momentumTransfer. rewrite (s_of_total evt (l1 ++ l2) (ps1 ++ ps2)) by now apply listed_app. rewrite (s_of_total _ _ _ H1), (s_of_total _ _ _ H2). cbn [bind]. rewrite total_app.
  rewrite <- (D (add4 _ _) (add4 _ _)), <- (D (total ps1) (total ps1)), <- (D (total ps2) (total ps2)). rewrite !(F (total ps1) (total ps2)).
  destruct (f (total ps1)) as [[x y z] e]. destruct (f (total ps2)) as [[x' y' z'] e']. cbn [add4 add3 vect vx vy vz] in A. injection A as A1 A2 A3.
  replace x' with (- x) in * by lra. replace y' with (- y) in * by lra. replace z' with (- z) in * by lra. unfold dot, add4, add3, dot3 in *. cbn [vect en vx vy vz] in *.
  set (s0 := (e + e') * (e + e') - _) in *. assert (S0 : s0 = (e + e') * (e + e')) by (unfold s0; ring). clearbody s0. destruct (Req_EM_T s0 0) as [Z|_]; [contradiction|].
  assert (E : e + e' <> 0) by (intro Z; apply N; rewrite S0, Z; ring). assert (Q : Q2 s0 (e * e - (x * x + y * y + z * z)) (e' * e' - (- x * - x + - y * - y + - z * - z)) = x * x + y * y + z * z) by (unfold Q2; rewrite S0; field; exact E).
  rewrite Q. destruct (Rle_dec 0 (x * x + y * y + z * z)) as [_|L]; [|exfalso; apply L; nra]. unfold mag, dot3. cbn [vect vx vy vz]. split; [reflexivity|]. f_equal. ring.
Qed.

(** ** The angle between planes *)
Lemma inv_sq x y : x * x + y * y = 1 -> x <> 0 -> 1 + (y / x)² = / x * / x.
Proof. intros H N. transitivity ((x * x + y * y) / (x * x)); [unfold Rsqr; field; assumption|]. rewrite H. field. assumption. Qed.
Lemma atan2_unit x y : x * x + y * y = 1 -> - PI < atan2 y x <= PI /\ cos (atan2 y x) = x /\ sin (atan2 y x) = y.
Proof.
  intro H. assert (P := PI_RGT_0). unfold atan2. destruct (Rlt_dec 0 x) as [X|X].
  - pose proof (atan_bound (y / x)). split; [lra|]. rewrite cos_atan, sin_atan. rewrite (inv_sq x y) by lra.
    assert (I : 0 < / x) by now apply Rinv_0_lt_compat. rewrite sqrt_square by lra. split; field; lra.
  - destruct (Rlt_dec x 0) as [X'|X'].
    + pose proof (atan_bound (y / x)) as B.
      assert (C : cos (atan (y / x)) = - x /\ sin (atan (y / x)) = - y).
      { rewrite cos_atan, sin_atan. rewrite (inv_sq x y) by lra. replace (/ x * / x) with (/ - x * / - x) by (field; lra).
        assert (I : 0 < / - x) by (apply Rinv_0_lt_compat; lra). rewrite sqrt_square by lra. split; field; lra. }
      destruct C as [C S']. destruct (Rle_dec 0 y) as [Y|Y].
      * split; [|rewrite neg_cos, neg_sin; split; lra]. split; [lra|]. assert (atan (y / x) <= 0); [|lra]. rewrite <- atan_0. destruct (Rle_lt_or_eq_dec _ _ Y) as [Y'|Y'].
        -- left. apply atan_increasing. unfold Rdiv. assert (/ x < 0) by now apply Rinv_lt_0_compat. nra.
        -- right. f_equal. rewrite <- Y'. field. lra.
      * split.
        -- split; [|lra]. assert (0 < atan (y / x)); [|lra]. rewrite <- atan_0. apply atan_increasing. unfold Rdiv. assert (/ x < 0) by now apply Rinv_lt_0_compat. nra.
        -- replace (atan (y / x) - PI) with (- (PI - atan (y / x))) by ring. rewrite cos_neg, sin_neg, Rtrigo_facts.cos_pi_minus, sin_PI_x. split; lra.
    + assert (x = 0) by lra. subst x. destruct (Rlt_dec 0 y) as [Y|Y].
      * rewrite cos_PI2, sin_PI2. split; [lra|]. split; nra.
      * destruct (Rlt_dec y 0) as [Y'|Y']; [|exfalso; nra]. rewrite cos_neg, sin_neg, cos_PI2, sin_PI2. split; [lra|]. split; nra.
Qed.
Lemma atan2_unique x y f : x * x + y * y = 1 -> - PI < f <= PI -> cos f = x -> sin f = y -> atan2 y x = f.
Proof.
  intros H F C S'. destruct (atan2_unit x y H) as (B & C' & S''). assert (P := PI_RGT_0). set (g := atan2 y x) in *.
  assert (Z : cos (g - f) = 1) by (rewrite cos_minus, C, C', S', S''; exact H).
  destruct (Rtotal_order (g - f) 0) as [L|[E|L]]; [|lra|].
  - exfalso. destruct (Rle_lt_dec (- PI) (g - f)) as [K|K].
    + assert (cos (g - f) < cos 0); [|rewrite cos_0 in *; lra]. rewrite <- (cos_neg (g - f)). apply cos_decreasing_1; lra.
    + assert (E : cos (g - f) = cos (g - f + 2 * PI)) by (rewrite (cos_plus (g - f)), cos_2PI, sin_2PI; ring). assert (cos (g - f + 2 * PI) < cos 0); [|rewrite cos_0 in *; lra]. apply cos_decreasing_1; lra.
  - exfalso. destruct (Rle_lt_dec (g - f) PI) as [K|K].
    + assert (cos (g - f) < cos 0); [|rewrite cos_0 in *; lra]. apply cos_decreasing_1; lra.
    + assert (E : cos (g - f) = cos (2 * PI - (g - f))) by (rewrite (cos_minus (2 * PI)), cos_2PI, sin_2PI; ring). assert (cos (2 * PI - (g - f)) < cos 0); [|rewrite cos_0 in *; lra]. apply cos_decreasing_1; lra.
Qed.
Lemma boostBy_push u v p : dot3 u u = 1 -> boostBy (scale v u) p = push u (gam v) v p.
Proof.
  intro U. unfold boostBy. rewrite !dot3_scale, dot3_scale_r, U, Rmult_1_r. fold (gam v). destruct (Rlt_dec 0 (v * v)) as [L|L].
  - assert (v <> 0) by (intro Z; subst; lra). unfold push. apply p4_eq; cbn [vect en]; [|ring]. apply v3_eq; unfold add3, scale; cbn [vx vy vz]; field; assumption.
  - assert (v = 0) by nra. subst v. assert (G : gam 0 = 1) by (unfold gam; rewrite Rmult_0_l, Rminus_0_r, sqrt_1; field). rewrite G. unfold push. apply p4_eq; cbn [vect en]; [|ring]. v3.
Qed.
Lemma rest_boostVector u g v M : dot3 u u = 1 -> g <> 0 -> at_rest (push u g v M) -> en M <> 0 -> scale (-1) (boostVector M) = scale v u.
Proof.
  intros U G A E. unfold at_rest, push in A. cbn [vect] in A. set (c := (g - 1) * dot3 u (vect M) + g * en M * v) in A.
  assert (K : dot3 u (vect M) + c = 0). { transitivity (dot3 u (add3 (vect M) (scale c u))); [rewrite dot3_add_r, dot3_scale_r, U; ring|]. rewrite A. v3. }
  assert (K' : dot3 u (vect M) = - (en M * v)) by (unfold c in K; apply Rmult_eq_reg_l with g; [|exact G]; lra). assert (C : c = en M * v) by lra. rewrite C in A. clear K K' C c.
  destruct M as [[x y z] e]. unfold add3, boostVector, scale in *. cbn [vect en vx vy vz] in *. injection A as A1 A2 A3. apply v3_eq; cbn [vx vy vz].
  - replace x with (- (e * v * vx u)) by lra. field. exact E.
  - replace y with (- (e * v * vy u)) by lra. field. exact E.
  - replace z with (- (e * v * vz u)) by lra. field. exact E.
Qed.
Lemma unit_dir a : dot3 a a <> 0 -> unit a = dir a.
Proof. intro H. unfold unit. destruct (Rlt_dec 0 (dot3 a a)) as [_|L]; [|exfalso; apply L; now apply mag_ne]. unfold dir, mag. unfold Rdiv. now rewrite Rmult_1_l. Qed.
(** three vectors that sum to nothing with a fourth *)
Lemma planes A B C D : add3 (add3 (add3 A B) C) D = V3 0 0 0 -> dot3 (cross A B) (cross A B) <> 0 -> dot3 (cross C D) (cross C D) <> 0 ->
  let w := dir (add3 C D) in let m1 := dir (cross A B) in let m2 := dir (cross C D) in let d := mag (cross D (unit (add3 A B))) in
  dot3 w w = 1 /\ dot3 (add3 C D) (add3 C D) <> 0 /\ d <> 0 /\ dot3 w m1 = 0 /\ dot3 w m2 = 0 /\
  dot3 m1 m2 * dot3 m1 m2 + dot3 D m1 / d * (dot3 D m1 / d) = 1 /\ m2 = add3 (scale (dot3 m1 m2) m1) (scale (dot3 D m1 / d) (cross w m1)).
Proof.
  intros Z N1 N2 w m1 m2 d. set (P := add3 C D) in *. assert (AB : add3 A B = scale (-1) P). { unfold P, add3, scale in *. cbn [vx vy vz] in *. injection Z as Z1 Z2 Z3. apply v3_eq; cbn [vx vy vz]; lra. }
  assert (X1 : cross A B = scale (-1) (cross A P)). { transitivity (cross A (add3 A B)); [v3|]. rewrite AB. v3. }
  assert (X2 : cross C D = cross P D) by (unfold P; v3).
  assert (NP : dot3 P P <> 0). { intro E. apply dot3_zero in E. rewrite X2, E in N2. apply N2. v3. }
  assert (W : dot3 w w = 1) by now apply dir_unit. assert (M1 : dot3 m1 m1 = 1) by now apply dir_unit. assert (M2 : dot3 m2 m2 = 1) by now apply dir_unit.
  pose proof (norm_pos P NP) as RP. set (r := sqrt (dot3 P P)) in *. assert (Pw : P = scale r w). { unfold w, dir. fold r. v3; field; lra. }
  assert (Ew : w = scale (/ r) P) by reflexivity. assert (R2' : dot3 P P = r * r) by (symmetry; apply sqrt_sqrt, dot3_pos). clearbody w r P.
  assert (W1 : dot3 w m1 = 0). { unfold m1, dir. assert (E : dot3 w (cross A B) = 0) by (rewrite X1, Pw; v3). rewrite dot3_scale_r, E. ring. }
  assert (W2 : dot3 w m2 = 0). { unfold m2, dir. assert (E : dot3 w (cross C D) = 0) by (rewrite X2, Pw; v3). rewrite dot3_scale_r, E. ring. }
  assert (DU : unit (add3 A B) = scale (-1) w).
  { rewrite AB. rewrite unit_dir by (rewrite dot3_scale, dot3_scale_r; lra). unfold dir. rewrite dot3_scale, dot3_scale_r. replace (-1 * (-1 * dot3 P P)) with (r * r) by lra. rewrite sqrt_square, Ew by lra. v3. }
  assert (Ed : d = mag (cross w D)). { unfold d. rewrite DU. f_equal. v3. }
  assert (Wd : dot3 (cross w D) (cross w D) <> 0). { intro E. apply dot3_zero in E. apply N2. rewrite X2, Pw. replace (cross (scale r w) D) with (scale r (cross w D)) by v3. rewrite E. v3. }
  assert (Hd : 0 < d) by (rewrite Ed; now apply mag_pos). assert (Edd : d * d = dot3 (cross w D) (cross w D)) by (rewrite Ed; apply mag_sq).
  assert (Em2 : m2 = scale (/ d) (cross w D)).
  { unfold m2, dir. rewrite X2, Pw. replace (cross (scale r w) D) with (scale r (cross w D)) by v3. rewrite dot3_scale, dot3_scale_r, <- Edd. replace (r * (r * (d * d))) with ((r * d) * (r * d)) by ring.
    rewrite sqrt_square by nra. v3; field; lra. }
  (* m1, w x m1, w are a frame *)
  assert (F : forall x, dot3 w x = 0 -> x = add3 (scale (dot3 m1 x) m1) (scale (dot3 (cross w m1) x) (cross w m1))).
  { clear - W M1 W1. intros x Hx. destruct w as [w1 w2 w3], m1 as [a b c], x as [p q s]. unfold dot3 in *. cbn [vx vy vz] in *. apply v3_eq; unfold add3, scale, cross, dot3; cbn [vx vy vz]; nsatz. }
  assert (T : dot3 (cross w m1) m2 = dot3 D m1 / d).
  { rewrite Em2, dot3_scale_r, cross_dot, W. rewrite (dot3_comm m1 w), W1, (dot3_comm m1 D). field. lra. }
  pose proof (F m2 W2) as R2. rewrite T in R2. repeat (split; [first [assumption|lra]|]). split; [|exact R2].
  assert (Q : dot3 m2 m2 = dot3 m1 m2 * dot3 m1 m2 + dot3 D m1 / d * (dot3 D m1 / d)).
  { rewrite R2 at 1. rewrite dot3_add, !dot3_scale, T. reflexivity. }
  rewrite <- Q. exact M2.
Qed.
Lemma phi_rest evt i j k l pA pB pC pD n v : listed evt [i; j; k; l] [pA; pB; pC; pD] -> dot3 n n <> 0 -> v * v < 1 ->
  let M := total [pA; pB; pC; pD] in at_rest (boost1 n v M) -> en M <> 0 ->
  let A := vect (boost1 n v pA) in let B := vect (boost1 n v pB) in let C := vect (boost1 n v pC) in let D := vect (boost1 n v pD) in
  dot3 (cross A B) (cross A B) <> 0 -> dot3 (cross C D) (cross C D) <> 0 ->
  exists f, phi evt i j k l = Ok f /\ - PI < f <= PI /\ dot3 (add3 C D) (add3 C D) <> 0 /\
    turned (dir (add3 C D)) f (dir (cross A B)) (dir (cross C D)) /\ cos f = dot3 (dir (cross A B)) (dir (cross C D)).
Proof.
  intros L Hn Hv M Rst E A B C D N1 N2. destruct (gam_ok v Hv) as [Gp G]. pose proof (dir_unit n Hn) as U.
  assert (EM : add4 (add4 (add4 pA pB) pC) pD = M). { unfold M. cbn [total]. now rewrite add4_0, !add4_assoc. }
  rewrite boost1_push in Rst by exact Hn. assert (BV : scale (-1) (boostVector M) = scale v (dir n)) by (apply (rest_boostVector _ (gam v)); [exact U|lra|exact Rst|exact E]).
  assert (Z : add3 (add3 (add3 A B) C) D = V3 0 0 0).
  { rewrite <- EM in Rst. rewrite !push_add in Rst. unfold at_rest in Rst. cbn [add4 vect] in Rst. unfold A, B, C, D. rewrite !boost1_push by exact Hn. exact Rst. }
  destruct (planes A B C D Z N1 N2) as (W & NP & Hd & W1 & W2 & Q & R2).
  unfold phi. inversion L as [|x1 y1 l1 l1' HA L1]; subst. inversion L1 as [|x2 y2 l2 l2' HB L2]; subst. inversion L2 as [|x3 y3 l3 l3' HC L3]; subst. inversion L3 as [|x4 y4 l4 l4' HD L4]; subst.
  rewrite (pFromEvent1_particle _ _ _ HA), (pFromEvent1_particle _ _ _ HB), (pFromEvent1_particle _ _ _ HC), (pFromEvent1_particle _ _ _ HD). cbn [bind]. unfold phi_of. rewrite EM, BV, !boostBy_push by exact U.
  rewrite <- !boost1_push by exact Hn. fold A B C D. rewrite !(unit_dir (cross _ _)) by assumption. set (d := mag (cross D (unit (add3 A B)))) in *. destruct (Req_EM_T d 0) as [Zd|_]; [contradiction|].
  set (x := dot3 (dir (cross A B)) (dir (cross C D))) in *. set (y := dot3 D (dir (cross A B)) / d) in *. destruct (atan2_unit x y Q) as (Rg & Cf & Sf).
  exists (atan2 y x). split; [reflexivity|]. split; [exact Rg|]. split; [exact NP|]. split; [|exact Cf]. set (w := dir (add3 C D)) in *. set (m1 := dir (cross A B)) in *. set (m2 := dir (cross C D)) in *.
  assert (T : turn1 w (atan2 y x) m1 = m2). { unfold turn1. rewrite Cf, Sf, W1. transitivity (add3 (scale x m1) (scale y (cross w m1))); [v3|]. now rewrite <- R2. }
  rewrite <- T. now apply turn1_turned.
Qed.
Lemma cos_abs f : cos (Rabs f) = cos f.
Proof. unfold Rabs. destruct (Rcase_abs f); [apply cos_neg|reflexivity]. Qed.
Lemma acoplanarity_rest evt pA pB pC pD n v : listed evt [0; 1; 2; 3]%nat [pA; pB; pC; pD] -> dot3 n n <> 0 -> v * v < 1 ->
  let M := total [pA; pB; pC; pD] in at_rest (boost1 n v M) -> en M <> 0 ->
  let A := vect (boost1 n v pA) in let B := vect (boost1 n v pB) in let C := vect (boost1 n v pC) in let D := vect (boost1 n v pD) in
  dot3 (cross A B) (cross A B) <> 0 -> dot3 (cross C D) (cross C D) <> 0 ->
  acoplanarity evt = Ok (acos (dot3 (dir (cross A B)) (dir (cross C D)))).
Proof.
  intros L Hn Hv M Rst E A B C D N1 N2. destruct (gam_ok v Hv) as [Gp G]. pose proof (dir_unit n Hn) as U.
  assert (EM : add4 (add4 (add4 pA pB) pC) pD = M). { unfold M. cbn [total]. now rewrite add4_0, !add4_assoc. }
  rewrite boost1_push in Rst by exact Hn. assert (BV : scale (-1) (boostVector M) = scale v (dir n)) by (apply (rest_boostVector _ (gam v)); [exact U|lra|exact Rst|exact E]).
  unfold acoplanarity. inversion L as [|x1 y1 l1 l1' HA L1]; subst. inversion L1 as [|x2 y2 l2 l2' HB L2]; subst. inversion L2 as [|x3 y3 l3 l3' HC L3]; subst. inversion L3 as [|x4 y4 l4 l4' HD L4]; subst.
  rewrite (pFromEvent1_particle _ _ _ HA), (pFromEvent1_particle _ _ _ HB), (pFromEvent1_particle _ _ _ HC), (pFromEvent1_particle _ _ _ HD). cbn [bind]. rewrite EM, BV, !boostBy_push by exact U.
  rewrite <- !boost1_push by exact Hn. fold A B C D. rewrite !unit_dir by assumption. reflexivity.
Qed.

(** turning everything *)
Lemma turn1_add u a x y : turn1 u a (add3 x y) = add3 (turn1 u a x) (turn1 u a y). Proof. unfold turn1. v3. Qed.
Lemma turn1_scale u a s x : turn1 u a (scale s x) = scale s (turn1 u a x). Proof. unfold turn1. v3. Qed.
Definition turn4 (u : v3) (a : R) (p : p4) : p4 := P4 (turn1 u a (vect p)) (en p).
Lemma turn4_add u a p q : turn4 u a (add4 p q) = add4 (turn4 u a p) (turn4 u a q).
Proof. unfold turn4, add4. cbn [vect en]. now rewrite turn1_add. Qed.
Lemma boostBy_form b p : exists s t, boostBy b p = P4 (add3 (vect p) (scale s b)) t /\ forall b' p', dot3 b' b' = dot3 b b -> dot3 b' (vect p') = dot3 b (vect p) -> en p' = en p ->
  boostBy b' p' = P4 (add3 (vect p') (scale s b')) t.
Proof.
  unfold boostBy. set (g := 1 / sqrt (1 - dot3 b b)). set (g2 := if Rlt_dec 0 (dot3 b b) then (g - 1) / dot3 b b else 0).
  exists (g2 * dot3 b (vect p) + g * en p), (g * (en p + dot3 b (vect p))). split.
  - apply p4_eq; cbn [vect en]; [|reflexivity]. v3.
  - intros b' p' E1 E2 E3. rewrite E1, E2, E3. fold g. fold g2. apply p4_eq; cbn [vect en]; [|reflexivity]. v3.
Qed.
Lemma boostBy_turn u a b p : dot3 u u = 1 -> boostBy (turn1 u a b) (turn4 u a p) = turn4 u a (boostBy b p).
Proof.
  intro U. destruct (boostBy_form b p) as (s & t & -> & H). rewrite H; cbn [turn4 vect en]; try (now rewrite ?turn1_dot by exact U). unfold turn4. cbn [vect en]. now rewrite turn1_add, turn1_scale.
Qed.
Lemma unit_turn u a x : dot3 u u = 1 -> unit (turn1 u a x) = turn1 u a (unit x).
Proof. intro U. unfold unit, mag. rewrite turn1_dot by exact U. destruct (Rlt_dec 0 (dot3 x x)); [now rewrite turn1_scale|reflexivity]. Qed.
Lemma mag_turn u a x : dot3 u u = 1 -> mag (turn1 u a x) = mag x.
Proof. intro U. unfold mag. now rewrite turn1_dot. Qed.
Lemma phi_of_turn u a p q r s : dot3 u u = 1 -> phi_of (turn4 u a p) (turn4 u a q) (turn4 u a r) (turn4 u a s) = phi_of p q r s.
Proof.
  intro U. unfold phi_of. rewrite <- !turn4_add. set (M := add4 (add4 (add4 p q) r) s).
  assert (E : scale (-1) (boostVector (turn4 u a M)) = turn1 u a (scale (-1) (boostVector M))) by (unfold boostVector; cbn [turn4 vect en]; now rewrite !turn1_scale).
  rewrite E, !boostBy_turn by exact U. cbn [turn4 vect]. rewrite <- !turn1_add, !turn1_cross, !unit_turn, !turn1_cross, !turn1_dot, !mag_turn by exact U. reflexivity.
Qed.
Lemma phi_turn evt n a i j k l : dot3 n n <> 0 -> phi (rotate evt n a) i j k l = phi evt i j k l.
Proof.
  intro H. unfold phi. assert (R1 : forall m, pFromEvent1 (rotate evt n a) m = bind (pFromEvent1 evt m) (fun p => Ok (turn4 (dir n) a p)) /\ (pFromEvent1 evt m = UB \/ exists p, pFromEvent1 evt m = Ok p)).
  { intro m. destruct (particle evt m) as [p|] eqn:P.
    - rewrite (pFromEvent1_particle _ _ _ P). cbn [bind]. split; [|right; eauto]. apply pFromEvent1_particle. unfold rotate. rewrite particle_each, P. cbn. now rewrite rotate1_turn.
    - assert (G : forall e, particle e m = None -> pFromEvent1 e m = UB).
      { clear. intros e P. unfold particle in P. unfold pFromEvent1, Events.Model.block, Events.Model.get. rewrite <- (Nat.add_0_r (4 * m)) at 1. rewrite <- !nth_skipn.
        destruct (skipn (4 * m) e) as [|x [|y [|z [|w r]]]]; try discriminate; reflexivity. }
      rewrite (G evt P), G; [split; [reflexivity|now left]|]. unfold rotate. now rewrite particle_each, P. }
  destruct (R1 i) as [-> [-> | [p ->]]]; [reflexivity|]. cbn [bind]. destruct (R1 j) as [-> [-> | [q ->]]]; [reflexivity|]. cbn [bind].
  destruct (R1 k) as [-> [-> | [r ->]]]; [reflexivity|]. cbn [bind]. destruct (R1 l) as [-> [-> | [s ->]]]; [reflexivity|]. cbn [bind]. now apply phi_of_turn, dir_unit.
Qed.

(** ** Coordinates with respect to a basis *)
Lemma basis_dot p1 p2 p3 p q : dot3 p1 p1 <> 0 -> dot3 p2 p2 <> 0 -> dot3 p3 p3 <> 0 -> dot3 p1 p2 = 0 -> dot3 p1 p3 = 0 -> dot3 p2 p3 = 0 ->
  dot3 (vect (rotateBasis1 p1 p2 p3 p)) (vect (rotateBasis1 p1 p2 p3 q)) = dot3 (vect p) (vect q).
Proof.
  intros N1 N2 N3 O12 O13 O23. pose proof (dir_unit _ N1) as U1. pose proof (dir_unit _ N2) as U2. pose proof (dir_unit _ N3) as U3. pose proof (norm_pos _ N1). pose proof (norm_pos _ N2). pose proof (norm_pos _ N3).
  assert (V12 : dot3 (dir p1) (dir p2) = 0) by (unfold dir; rewrite dot3_scale, dot3_scale_r, O12; ring). assert (V13 : dot3 (dir p1) (dir p3) = 0) by (unfold dir; rewrite dot3_scale, dot3_scale_r, O13; ring).
  assert (V23 : dot3 (dir p2) (dir p3) = 0) by (unfold dir; rewrite dot3_scale, dot3_scale_r, O23; ring).
  assert (F : forall b x, dot3 b x / mag b = dot3 (dir b) x) by (intros; unfold dir, mag, Rdiv; rewrite dot3_scale; ring).
  unfold rotateBasis1. rewrite !F. cbn [vect]. set (u := dir p1) in *. set (v := dir p2) in *. set (w := dir p3) in *. clearbody u v w. clear - U1 U2 U3 V12 V13 V23.
  (* a frame: the transpose is inverse too *)
  set (x := vect p). set (y := vect q). clearbody x y.
  set (D := dot3 u (cross v w)). assert (DD : D * D = 1).
  { transitivity (dot3 u u * (dot3 v v * dot3 w w - dot3 v w * dot3 v w) - dot3 u v * (dot3 u v * dot3 w w - dot3 v w * dot3 u w) + dot3 u w * (dot3 u v * dot3 v w - dot3 v v * dot3 u w)); [unfold D; v3|]. rewrite U1, U2, U3, V12, V13, V23. ring. }
  assert (K : scale D x = add3 (add3 (scale (dot3 u x) (cross v w)) (scale (dot3 v x) (cross w u))) (scale (dot3 w x) (cross u v))) by (unfold D; v3).
  assert (C1 : cross v w = scale D u). { clear K. destruct u as [a b c], v as [d e f], w as [g h i]. unfold D, dot3, cross, scale in *. cbn [vx vy vz] in *. clear D DD. apply v3_eq; cbn [vx vy vz]; nsatz. }
  assert (C2 : cross w u = scale D v). { clear K C1. destruct u as [a b c], v as [d e f], w as [g h i]. unfold D, dot3, cross, scale in *. cbn [vx vy vz] in *. clear D DD. apply v3_eq; cbn [vx vy vz]; nsatz. }
  assert (C3 : cross u v = scale D w). { clear K C1 C2. destruct u as [a b c], v as [d e f], w as [g h i]. unfold D, dot3, cross, scale in *. cbn [vx vy vz] in *. clear D DD. apply v3_eq; cbn [vx vy vz]; nsatz. }
  rewrite C1, C2, C3 in K. clearbody D. unfold dot3 at 1. cbn [vx vy vz].
  apply Rmult_eq_reg_l with D; [|intro Z; rewrite Z in DD; lra]. transitivity (dot3 (scale D x) y); [|v3]. rewrite K. rewrite !dot3_add, !dot3_scale. ring.
Qed.

Lemma not_null a : ~ null a <-> dot3 a a <> 0.
Proof.
  unfold null. split; intros H E; apply H; [now apply dot3_zero|]. subst. v3.
Qed.
