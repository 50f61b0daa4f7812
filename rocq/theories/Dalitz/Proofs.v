From Coq Require Import Reals Lra Lia.
From Coquelicot Require Import Coquelicot.
From Verif.Common Require Import Prelude.
From Verif.Kinematics Require Import Model.
From Verif.Dalitz Require Import Model Spec.
Local Open Scope R_scope.

Lemma sqrt_pow x : 0 <= x -> sqrt x * sqrt x = x.
Proof. apply sqrt_def. Qed.
Lemma getMAB_range d x : open d -> m_min d <= getMAB d x <= m_max d.
Proof.
  intros (_ & _ & _ & _ & _ & H). unfold getMAB, getMAB_at. fold (m_max d). assert (m_min d <= m_max d) by (unfold m_min, m_max, max_at; lra). pose proof (COS_bound (PI * x)). split; nra.
Qed.
Lemma getMAB_pos d x : open d -> 0 < getMAB d x.
Proof. intro H. pose proof (getMAB_range d x H). destruct H as (_ & _ & _ & _ & P & _). unfold m_min in *. lra. Qed.
(** The momentum of A in the frame of AB *)
Lemma arg_A_factor d m : 0 <= m_s1 d -> 0 <= m_s2 d -> m <> 0 -> arg_A d m = (m * m - (sqrt (m_s1 d) + sqrt (m_s2 d)) * (sqrt (m_s1 d) + sqrt (m_s2 d))) * (m * m - (sqrt (m_s1 d) - sqrt (m_s2 d)) * (sqrt (m_s1 d) - sqrt (m_s2 d))) / (4 * m * m).
Proof.
  intros A B M. unfold arg_A. pose proof (sqrt_pow _ A) as EA. pose proof (sqrt_pow _ B) as EB. set (a := sqrt (m_s1 d)) in *. set (b := sqrt (m_s2 d)) in *. rewrite <- EA, <- EB. field. exact M.
Qed.
Lemma arg_A_pos d m : open d -> m_min d <= m -> 0 <= arg_A d m.
Proof.
  intros (A & B & _ & _ & P & _) H. unfold m_min in H. rewrite arg_A_factor by (assumption || lra). pose proof (sqrt_pos (m_s1 d)). pose proof (sqrt_pos (m_s2 d)). set (a := sqrt (m_s1 d)) in *. set (b := sqrt (m_s2 d)) in *.
  apply Rmult_le_pos; [apply Rmult_le_pos; nra|]. left. apply Rinv_0_lt_compat. nra.
Qed.
Lemma arg_A_strict d m : open d -> m_min d < m -> 0 < arg_A d m.
Proof.
  intros (A & B & _ & _ & P & _) H. unfold m_min in H. rewrite arg_A_factor by (assumption || lra). pose proof (sqrt_pos (m_s1 d)). pose proof (sqrt_pos (m_s2 d)). set (a := sqrt (m_s1 d)) in *. set (b := sqrt (m_s2 d)) in *.
  apply Rmult_lt_0_compat; [apply Rmult_lt_0_compat; nra|]. apply Rinv_0_lt_compat. nra.
Qed.
Lemma e_C_ge d m : open d -> 0 < m -> m <= m_max d -> sqrt (m_s3 d) <= e_C d m.
Proof.
  intros (_ & _ & C & D & _ & _) M H. unfold m_max, max_at in H. unfold e_C. pose proof (sqrt_pow _ C) as EC. pose proof (sqrt_pow _ D) as ED. pose proof (sqrt_pos (m_s3 d)). set (c := sqrt (m_s3 d)) in *. set (z := sqrt (m_s0 d)) in *.
  apply (Rmult_le_reg_r (2 * m)); [lra|]. replace ((m_s0 d - m_s3 d - m * m) / (2 * m) * (2 * m)) with (m_s0 d - m_s3 d - m * m) by (field; lra). nra.
Qed.
Lemma e_C_strict d m : open d -> 0 < m -> m < m_max d -> sqrt (m_s3 d) < e_C d m.
Proof.
  intros (_ & _ & C & D & _ & _) M H. unfold m_max, max_at in H. unfold e_C. pose proof (sqrt_pow _ C) as EC. pose proof (sqrt_pow _ D) as ED. pose proof (sqrt_pos (m_s3 d)). set (c := sqrt (m_s3 d)) in *. set (z := sqrt (m_s0 d)) in *.
  apply (Rmult_lt_reg_r (2 * m)); [lra|]. replace ((m_s0 d - m_s3 d - m * m) / (2 * m) * (2 * m)) with (m_s0 d - m_s3 d - m * m) by (field; lra). nra.
Qed.
Lemma safe_sq x : 0 <= x -> safe_sqrt x * safe_sqrt x = x.
Proof. intro H. unfold safe_sqrt. destruct (Rlt_dec 0 x); [now apply sqrt_def|lra]. Qed.
Lemma safe_pos x : 0 <= safe_sqrt x.
Proof. unfold safe_sqrt. destruct (Rlt_dec 0 x); [apply sqrt_pos|lra]. Qed.
Lemma safe_eq x : 0 <= x -> safe_sqrt x = sqrt x.
Proof. intro H. unfold safe_sqrt. destruct (Rlt_dec 0 x); [reflexivity|]. replace x with 0 by lra. now rewrite sqrt_0. Qed.
(** The energies of A and B *)
Lemma energies d m : open d -> m_min d <= m -> let pa := safe_sqrt (arg_A d m) in
  sqrt (pa * pa + m_s1 d) = (m * m + m_s1 d - m_s2 d) / (2 * m) /\ sqrt (pa * pa + m_s2 d) = (m * m + m_s2 d - m_s1 d) / (2 * m).
Proof.
  intros H M. pose proof (arg_A_pos d m H M) as Q. cbv zeta. rewrite safe_sq by exact Q. destruct H as (A & B & _ & _ & P & _). unfold m_min in M. pose proof (sqrt_pow _ A) as EA. pose proof (sqrt_pow _ B) as EB.
  pose proof (sqrt_pos (m_s1 d)). pose proof (sqrt_pos (m_s2 d)). set (a := sqrt (m_s1 d)) in *. set (b := sqrt (m_s2 d)) in *. unfold arg_A. rewrite <- EA, <- EB. split.
  - rewrite <- (sqrt_square ((m * m + a * a - b * b) / (2 * m))); [f_equal; field; lra|]. apply Rmult_le_pos; [nra|]. left. apply Rinv_0_lt_compat. lra.
  - rewrite <- (sqrt_square ((m * m + b * b - a * a) / (2 * m))); [f_equal; field; lra|]. apply Rmult_le_pos; [nra|]. left. apply Rinv_0_lt_compat. lra.
Qed.
Lemma pc_ok d x : open d -> let ec := e_C d (getMAB d x) in 0 <= ec * ec - m_s3 d /\ 0 <= ec.
Proof.
  intro H. cbv zeta. pose proof (e_C_ge d _ H (getMAB_pos d x H) (proj2 (getMAB_range d x H))) as E. destruct H as (_ & _ & C & _). pose proof (sqrt_pow _ C). pose proof (sqrt_pos (m_s3 d)). nra.
Qed.
Lemma sincos z : sin z * sin z + cos z * cos z = 1.
Proof. exact (sin2_cos2 z). Qed.
Lemma event_masses d x y : open d -> let e := setEvent d x y in
  mass2 (pA e) = m_s1 d /\ mass2 (pB e) = m_s2 d /\ mass2 (pC e) = m_s3 d /\ 0 <= en (pA e) /\ 0 <= en (pB e) /\ 0 <= en (pC e) /\
  sAB e = getMAB d x * getMAB d x /\ sABC e = m_s0 d.
Proof.
  intro H. cbv zeta. pose proof (getMAB_pos d x H) as M. pose proof (getMAB_range d x H) as [R1 R2]. destruct (energies d _ H R1) as [EA EB]. destruct (pc_ok d x H) as [PC EC]. pose proof (arg_A_pos d _ H R1) as PA.
  unfold setEvent, event_of, sAB, sABC, mass2, dot, add4, add3, dot3. cbn [pA pB pC vect en vx vy vz]. set (m := getMAB d x) in *. set (pa := safe_sqrt (arg_A d m)) in *. set (ec := e_C d m) in *. set (pc := safe_sqrt (ec * ec - m_s3 d)) in *.
  assert (Epc : pc * pc = ec * ec - m_s3 d) by (now apply safe_sq). pose proof (sincos (PI * y)) as SC. destruct H as (A & B & C & _). assert (Pa : 0 <= pa * pa) by nra.
  split; [rewrite sqrt_def by lra; ring|]. split; [rewrite sqrt_def by lra; ring|]. split; [nra|]. split; [apply sqrt_pos|]. split; [apply sqrt_pos|]. split; [exact EC|]. cbv zeta in EA, EB. fold pa in EA, EB. rewrite EA, EB. split; [field; lra|].
  assert (Em : 2 * m * ec = m_s0 d - m_s3 d - m * m) by (unfold ec, e_C; field; lra).
  replace ((m * m + m_s1 d - m_s2 d) / (2 * m) + (m * m + m_s2 d - m_s1 d) / (2 * m)) with m by (field; lra). nra.
Qed.
Lemma at_member d x y : open d -> setEvent_at d (m_s0 d) x y = Ok (setEvent d x y) /\ J_at d (m_s0 d) x y = Ok (J d x y).
Proof.
  intro H. pose proof (getMAB_range d x H) as [R1 R2]. destruct (pc_ok d x H) as [PC EC]. pose proof (arg_A_pos d _ H R1) as PA. unfold setEvent_at, setEvent, J_at, J, SQRT. fold (getMAB d x).
  set (m := getMAB d x) in *. cbv zeta in PC. destruct (Rle_dec 0 (arg_A d m)); [|contradiction]. cbn [bind]. destruct (Rle_dec 0 (e_C d m * e_C d m - m_s3 d)); [|contradiction]. cbn [bind]. rewrite !safe_eq by assumption. now split.
Qed.
Lemma acos_cos_unit x : in_unit x -> acos (cos (PI * x)) / PI = x.
Proof. intros [A B]. pose proof PI_RGT_0. rewrite acos_cos by nra. field. lra. Qed.
Lemma first_coordinate d x y : open d -> m_min d < m_max d -> in_unit x -> sqDp1 d (setEvent d x y) = Ok x.
Proof.
  intros H L X. destruct (event_masses d x y H) as (_ & _ & _ & _ & _ & _ & E & _). unfold sqDp1. unfold sAB, mass2 in E. rewrite E. pose proof (getMAB_pos d x H) as M. unfold SQRT. destruct (Rle_dec 0 (getMAB d x * getMAB d x)); [|nra]. cbn [bind]. rewrite sqrt_square by lra.
  destruct (Req_EM_T (m_max d - m_min d) 0); [lra|]. replace (2 * (getMAB d x - m_min d) / (m_max d - m_min d) - 1) with (cos (PI * x)) by (unfold getMAB, getMAB_at; fold (m_max d); field; lra).
  pose proof (COS_bound (PI * x)). destruct (Rlt_dec 1 (cos (PI * x))); [lra|]. destruct (Rlt_dec (cos (PI * x)) (-1)); [lra|]. now rewrite acos_cos_unit.
Qed.
Lemma mab_inside d x : m_min d < m_max d -> 0 < x < 1 -> m_min d < getMAB d x < m_max d.
Proof.
  intros L X. unfold getMAB, getMAB_at. fold (m_max d). pose proof PI_RGT_0. assert (cos (PI * x) < 1) by (rewrite <- cos_0; apply cos_decreasing_1; nra). assert (-1 < cos (PI * x)) by (rewrite <- cos_PI; apply cos_decreasing_1; nra). split; nra.
Qed.
Lemma second_coordinate d x y : open d -> m_min d < m_max d -> 0 < x < 1 -> in_unit y -> sqDp2 (setEvent d x y) = Ok y.
Proof.
  intros H L X Y. destruct (mab_inside d x L X) as [I1 I2]. pose proof (getMAB_pos d x H) as M. destruct (energies d (getMAB d x) H (Rlt_le _ _ I1)) as [EA EB]. pose proof (arg_A_strict d _ H I1) as PA. pose proof (e_C_strict d _ H M I2) as EC.
  assert (PC : 0 < e_C d (getMAB d x) * e_C d (getMAB d x) - m_s3 d). { destruct H as (_ & _ & C & _). pose proof (sqrt_pow _ C). pose proof (sqrt_pos (m_s3 d)). nra. }
  unfold sqDp2, dotProduct, setEvent, event_of. cbv zeta in EA, EB. cbn [pA pB pC]. unfold dot, add4, add3, dot3. cbn [vect en vx vy vz]. set (m := getMAB d x) in *. set (ec := e_C d m) in *. pose proof (safe_sq _ (Rlt_le _ _ PA)) as Spa. pose proof (safe_sq _ (Rlt_le _ _ PC)) as Spc.
  assert (Ppa : 0 < safe_sqrt (arg_A d m)) by (unfold safe_sqrt; destruct (Rlt_dec 0 (arg_A d m)); [now apply sqrt_lt_R0|contradiction]).
  assert (Ppc : 0 < safe_sqrt (ec * ec - m_s3 d)) by (unfold safe_sqrt; destruct (Rlt_dec 0 (ec * ec - m_s3 d)); [now apply sqrt_lt_R0|contradiction]).
  set (pa := safe_sqrt (arg_A d m)) in *. set (pc := safe_sqrt (ec * ec - m_s3 d)) in *. set (ea := sqrt (pa * pa + m_s1 d)) in *. set (eb := sqrt (pa * pa + m_s2 d)) in *. assert (Sum : ea + eb = m) by (rewrite EA, EB; field; lra). rewrite Sum.
  pose proof (sincos (PI * y)) as SC. match goal with |- context [Req_EM_T ?a 0] => replace a with (m * m) by ring; destruct (Req_EM_T (m * m) 0); [nra|] end. cbn [bind]. 
  
  match goal with |- context [Rlt_dec 0 (?a * ?b)] => replace a with (pa * pa) by (field; nra); replace b with (pc * pc) end.
  - destruct (Rlt_dec 0 (pa * pa * (pc * pc))) as [_|F]; [|destruct F; apply Rmult_lt_0_compat; nra]. replace (pa * pa * (pc * pc)) with (pa * pc * (pa * pc)) by ring. rewrite sqrt_square by nra. f_equal.
    match goal with |- acos ?z / PI = _ => replace z with (cos (PI * y)) end; [now apply acos_cos_unit|]. field. repeat split; nra.
  - replace (pc * pc) with (pc * pc * (sin (PI * y) * sin (PI * y) + cos (PI * y) * cos (PI * y))) by (rewrite SC; ring). field. nra.
Qed.
Lemma reach d m c : m_min d < m_max d -> m_min d <= m <= m_max d -> -1 <= c <= 1 -> exists x y, in_unit x /\ in_unit y /\ getMAB d x = m /\ cos (PI * y) = c.
Proof.
  intros L M C. set (u := 2 * (m - m_min d) / (m_max d - m_min d) - 1). assert (U : -1 <= u <= 1).
  { assert (0 <= (m - m_min d) / (m_max d - m_min d) <= 1). { split; [apply Rmult_le_pos; [lra|left; apply Rinv_0_lt_compat; lra]|]. apply (Rmult_le_reg_r (m_max d - m_min d)); [lra|]. replace ((m - m_min d) / (m_max d - m_min d) * (m_max d - m_min d)) with (m - m_min d) by (field; lra). lra. }
    unfold u. replace (2 * (m - m_min d) / (m_max d - m_min d)) with (2 * ((m - m_min d) / (m_max d - m_min d))) by (unfold Rdiv; ring). lra. }
  pose proof PI_RGT_0 as Pp. assert (Un : forall v, in_unit (acos v / PI)). { intro v. pose proof (acos_bound v). split; [apply Rmult_le_pos; [lra|left; now apply Rinv_0_lt_compat]|]. apply (Rmult_le_reg_r PI); [lra|]. replace (acos v / PI * PI) with (acos v) by (field; lra). lra. }
  exists (acos u / PI), (acos c / PI). split; [apply Un|]. split; [apply Un|]. unfold getMAB, getMAB_at. fold (m_max d). replace (PI * (acos u / PI)) with (acos u) by (field; lra). replace (PI * (acos c / PI)) with (acos c) by (field; lra). rewrite !cos_acos by assumption. split; [unfold u; field; lra|reflexivity].
Qed.
(** ** The Jacobian *)
Lemma sAC_value d x y : open d -> sAC (setEvent d x y) =
  m_s1 d + m_s3 d + 2 * ((getMAB d x * getMAB d x + m_s1 d - m_s2 d) / (2 * getMAB d x) * e_C d (getMAB d x) - safe_sqrt (arg_A d (getMAB d x)) * safe_sqrt (e_C d (getMAB d x) * e_C d (getMAB d x) - m_s3 d) * cos (PI * y)).
Proof.
  intro H. destruct (event_masses d x y H) as (A & _ & C & _). pose proof (getMAB_range d x H) as [R1 _]. destruct (energies d _ H R1) as [EA _]. cbv zeta in EA.
  assert (E : sAC (setEvent d x y) = mass2 (pA (setEvent d x y)) + mass2 (pC (setEvent d x y)) + 2 * dot (pA (setEvent d x y)) (pC (setEvent d x y))). { unfold sAC, mass2, dot, add4, add3, dot3. cbn [vect en vx vy vz]. ring. }
  rewrite E, A, C. f_equal. f_equal. unfold setEvent, event_of, dot, dot3. cbn [pA pC vect en vx vy vz]. rewrite EA. ring.
Qed.
Lemma deriv_sAB d x y : open d -> is_derive (fun x => sAB (setEvent d x y)) x (- (2 * getMAB d x * deriv1 d (m_s0 d) x)).
Proof.
  intro H. apply (is_derive_ext (fun x => getMAB d x * getMAB d x)); [intro t; symmetry; apply (event_masses d t y H)|]. unfold getMAB, getMAB_at, deriv1. auto_derive; [exact I|]. field.
Qed.
Lemma deriv_sAB_y d x y : open d -> is_derive (fun y => sAB (setEvent d x y)) y 0.
Proof. intro H. apply (is_derive_ext (fun _ => getMAB d x * getMAB d x)); [intro t; symmetry; apply (event_masses d x t H)|]. auto_derive; [exact I|ring]. Qed.
Lemma deriv_sAC d x y : open d -> is_derive (fun y => sAC (setEvent d x y)) y (2 * safe_sqrt (arg_A d (getMAB d x)) * safe_sqrt (e_C d (getMAB d x) * e_C d (getMAB d x) - m_s3 d) * deriv2 y).
Proof.
  intro H. eapply is_derive_ext; [intro t; symmetry; apply (sAC_value d x t H)|]. unfold deriv2. set (pa := safe_sqrt _). set (pc := safe_sqrt _). auto_derive; [exact I|]. ring.
Qed.
Lemma J_pos d x y : open d -> in_unit x -> in_unit y -> 0 <= J d x y.
Proof.
  intros H X Y. pose proof (getMAB_pos d x H) as M. unfold J, deriv1, deriv2. fold (m_max d). pose proof PI_RGT_0. assert (0 <= sin (PI * x)) by (apply sin_ge_0; destruct X; nra). assert (0 <= sin (PI * y)) by (apply sin_ge_0; destruct Y; nra).
  assert (m_min d <= m_max d) by (destruct H as (_ & _ & _ & _ & _ & L); unfold m_min, m_max, max_at; lra). set (p := PI) in *. clearbody p. repeat (apply Rmult_le_pos); try apply safe_pos; lra.
Qed.
