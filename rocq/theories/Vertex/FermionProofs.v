From Verif.Common Require Import Prelude.
From Coq Require Import Reals Lra Field FunctionalExtensionality.
From Coquelicot Require Import Hierarchy Complex.
From Verif.Vertex Require Import Model Spec Algebra OrbitalProofs BosonProofs DiracProofs.
Local Open Scope C_scope.
Local Notation PW := Orbital_PWave.

(** The projector on particles (e = 1) and antiparticles (e = -1). *)
Definition proj (e : C) (P : vec) (M : R) : ten := msc (1 / 2) (madd (msc (e / RtoC M) (slash P)) Identity).
Section Projector.
  Variables (P : vec) (M : R).
  Hypothesis H : massive P M.
  Lemma mass_eq : mass P = RtoC M.
  Proof. destruct H as (_ & E & Mp). unfold mass. rewrite dot_ip, E. unfold RtoC, Re. cbn. f_equal. apply sqrt_square. lra. Qed.
  Lemma M_neq : RtoC M <> 0. Proof. destruct H as (_ & _ & Mp). intro E. apply RtoC_inj in E. lra. Qed.
  Lemma P_neq : ip P P <> 0.
  Proof. destruct H as (_ & -> & Mp). rewrite RtoC_mult. apply Cmult_neq_0; exact M_neq. Qed.
  Lemma PP : ip P P = RtoC M * RtoC M. Proof. destruct H as (_ & -> & _). apply RtoC_mult. Qed.
  Lemma Spin1h_eq : Spin1hProjector P = proj 1 P M.
  Proof. apply ten_ext. intros. unfold Spin1hProjector, proj, msc, madd. rewrite mass_eq. unfold Cdiv. ring. Qed.
  Lemma Spin1hb_eq : Spin1hbProjector P = proj (-(1)) P M.
  Proof. apply ten_ext. intros. unfold Spin1hbProjector, proj, msc, madd. rewrite mass_eq. unfold Cdiv. ring. Qed.
  Lemma slash_proj e : e * e = 1 -> mm (slash P) (proj e P M) = msc (e * RtoC M) (proj e P M).
  Proof.
    intro He. unfold proj. rewrite mm_sc_r, mm_add_r, mm_sc_r, slash_sq, mm_id_r, PP. apply ten_ext. intros i j. unfold msc, madd.
    transitivity (1 / 2 * ((e * RtoC M) * (RtoC M * / RtoC M) * Identity i j + slash P i j)); [unfold Cdiv; ring|].
    transitivity (1 / 2 * ((e * e) * (RtoC M * / RtoC M) * slash P i j + e * RtoC M * Identity i j)); [|unfold Cdiv; ring].
    rewrite Cinv_r by exact M_neq. rewrite He. ring.
  Qed.
  Lemma proj_sum : madd (proj 1 P M) (proj (-(1)) P M) = Identity.
  Proof.
    apply ten_ext. intros i j. unfold proj, msc, madd. transitivity ((1 / 2 + 1 / 2) * Identity i j); [unfold Cdiv; ring|]. rewrite half_half. ring.
  Qed.
  Lemma proj_idem e : e * e = 1 -> mm (proj e P M) (proj e P M) = proj e P M.
  Proof.
    intro He. unfold proj at 1. rewrite mm_sc_l, mm_add_l, mm_sc_l, slash_proj, mm_id_l by exact He. apply ten_ext. intros i j. unfold msc at 1 2 3, madd at 1.
    transitivity (1 / 2 * ((e * e) * (RtoC M * / RtoC M) + 1) * proj e P M i j); [unfold Cdiv; ring|]. rewrite Cinv_r by exact M_neq. rewrite He.
    transitivity ((1 / 2 + 1 / 2) * proj e P M i j); [ring|]. rewrite half_half. ring.
  Qed.
  Lemma proj_ortho e : e * e = 1 -> mm (proj e P M) (proj (- e) P M) = (fun _ _ => 0).
  Proof.
    intro He. assert (He' : - e * - e = 1) by (rewrite <- He; ring). unfold proj at 1. rewrite mm_sc_l, mm_add_l, mm_sc_l, slash_proj, mm_id_l by exact He'. apply ten_ext. intros i j. unfold msc at 1 2 3, madd at 1.
    transitivity (1 / 2 * (- (e * e) * (RtoC M * / RtoC M) + 1) * proj (- e) P M i j); [unfold Cdiv; ring|]. rewrite Cinv_r by exact M_neq. rewrite He. ring.
  Qed.
  (** A solution of the equation is what the projector makes, and keeps. *)
  Lemma dirac_proj e w : e * e = 1 -> dirac e P M (mv (proj e P M) w).
  Proof. intro He. unfold dirac. now rewrite <- mv_mm, slash_proj, mv_msc. Qed.
  Lemma proj_dirac e w : e * e = 1 -> dirac e P M w -> mv (proj e P M) w = w.
  Proof.
    intros He D. unfold proj. rewrite mv_msc, mv_madd, mv_msc, mv_id, D. apply vec_ext. intro i. unfold vsc, vadd.
    transitivity (1 / 2 * ((e * e) * (RtoC M * / RtoC M) + 1) * w i); [unfold Cdiv; ring|]. rewrite Cinv_r by exact M_neq. rewrite He.
    transitivity ((1 / 2 + 1 / 2) * w i); [ring|]. rewrite half_half. ring.
  Qed.
  Lemma dirac_sc e x w : dirac e P M w -> dirac e P M (fun a => w a * x).
  Proof. unfold dirac. intro D. replace (fun a => w a * x) with (vsc x w) by (apply vec_ext; intro; unfold vsc; ring). rewrite mv_vsc, D. apply vec_ext. intro. unfold vsc. ring. Qed.
  Lemma dirac_add e v w : dirac e P M v -> dirac e P M w -> dirac e P M (vadd v w).
  Proof. unfold dirac. intros D E. rewrite mv_vadd, D, E. apply vec_ext. intro. unfold vadd, vsc. ring. Qed.

  (** A transverse vector carries particles to antiparticles. *)
  Lemma slash_trans_proj e L : ip P L = 0 -> mm (slash L) (proj e P M) = mm (proj (- e) P M) (slash L).
  Proof.
    intro T. unfold proj. rewrite mm_sc_r, mm_add_r, mm_sc_r, mm_id_r, mm_sc_l, mm_add_l, mm_sc_l, mm_id_l, (anti P L T).
    apply ten_ext. intros. unfold msc, madd, Cdiv. ring.
  Qed.
  Lemma gt_proj e n : mm (gamma_twiddle P n) (proj e P M) = mm (proj (- e) P M) (gamma_twiddle P n).
  Proof. rewrite gt_unit. apply slash_trans_proj, pwave_trans, P_neq. Qed.
  (** Sums over the vector index *)
  Lemma gsum_P (w : vec) : gsum (fun m => vsc (P m) (mv (gamma_twiddle P m) w)) = zero.
  Proof.
    rewrite (gsum_ext _ (fun m => vadd (vsc (P m) (mv (Gamma m) w)) (vsc (-(1)) (vsc (P m * P m / ip P P) (mv (slash P) w))))).
    - rewrite gsum_add, gsum_gamma_vec, gsum_sc. apply vec_ext. intro a. unfold vadd, vsc, zero, gsum. set (x := mv (slash P) w a).
      transitivity (x - x * (ip P P * / ip P P)); [unfold ip, Cdiv; ring|]. rewrite Cinv_r by exact P_neq. ring.
    - intro m. rewrite gt_eq, mv_madd, mv_msc. apply vec_ext. intro a. unfold vadd, vsc, Cdiv. ring.
  Qed.
  Lemma gamma_proj_gt e : e * e = 1 -> msum (fun m => mm (Gamma m) (mm (proj e P M) (gamma_twiddle P m))) = msc 3 (proj (- e) P M).
  Proof.
    intro He.
    rewrite (msum_ext _ (fun m => madd (madd (msc (1 / 2 * (e / RtoC M)) (mm (mm (Gamma m) (slash P)) (Gamma m))) (msc (1 / 2) (mm (Gamma m) (Gamma m))))
       (msc (- (/ ip P P)) (mm (msc (P m) (Gamma m)) (mm (proj e P M) (slash P)))))).
    2:{ intro m. rewrite gt_eq, !mm_add_r, !mm_sc_r, mm_sc_l. unfold proj at 1. rewrite mm_sc_l, mm_add_l, mm_sc_l, mm_id_l, mm_sc_r, mm_add_r, mm_sc_r, <- mm_assoc.
        apply ten_ext. intros. unfold madd, msc, Cdiv. ring. }
    rewrite !msum_add, !msum_sc, msum_mm_r, msum_vec, gamma_gamma, gamma_slash_gamma.
    replace (mm (proj e P M) (slash P)) with (mm (slash P) (proj e P M)).
    2:{ unfold proj. rewrite mm_sc_l, mm_sc_r, mm_add_l, mm_add_r, mm_sc_l, mm_sc_r, mm_id_l, mm_id_r. reflexivity. }
    rewrite slash_proj, mm_sc_r, slash_proj by exact He. unfold proj. rewrite PP, C3, C2, C4. apply ten_ext. intros i j. unfold madd, msc.
    set (h := 1 / (1 + 1)). assert (Hh : h + h = 1) by (pose proof half_half as Q; rewrite C2 in Q; exact Q).
    assert (I : RtoC M * RtoC M * / (RtoC M * RtoC M) = 1) by (apply Cinv_r, Cmult_neq_0; exact M_neq).
    set (w := / (RtoC M * RtoC M)) in *. set (g := slash P i j). set (d := Identity i j). unfold Cdiv.
    transitivity (h * (e * / RtoC M) * (- (1 + 1) * g) + h * ((1 + 1 + 1 + 1) * d) - (e * e) * (RtoC M * RtoC M * w) * (h * (e * / RtoC M * g + d))); [ring|].
    rewrite I, He. ring.
  Qed.

  (** *** Spin 3/2 *)
  Lemma state_intro3 e V : (forall m, dirac e P M (V m)) -> gsum (fun m => vsc (P m) (V m)) = zero -> gsum (fun m => mv (Gamma m) (V m)) = zero -> spin3h_state e P M V.
  Proof.
    intros D T G. split; [exact D|]. split; intro a.
    - transitivity (gsum (fun m => vsc (P m) (V m)) a); [unfold gsum, vsc, ip; ring|]. now rewrite T.
    - change (gsum (fun m => mv (Gamma m) (V m)) a = 0). now rewrite G.
  Qed.
  Lemma to_r_P_eq F Q V1 V2 n : to_r_P F P Q V1 V2 n = vadd (vsc (- PW P Q n) (mv F V1)) (vsc (1 / 3) (mv F (mv (gamma_twiddle P n) (mv (slash (PW P Q)) V1)))).
  Proof.
    unfold to_r_P. cbv zeta. rewrite <- !mv_mm, <- ?mm_assoc, <- !mv_msc, <- mv_madd. f_equal. apply ten_ext. intros. unfold madd, msc. ring.
  Qed.
  Lemma to_r_P_state e Q V1 V2 : e * e = 1 -> spin3h_state e P M (to_r_P (proj e P M) P Q V1 V2).
  Proof.
    intro He. assert (T := pwave_trans P P_neq Q). set (L := PW P Q) in *. apply state_intro3.
    - intro m. rewrite to_r_P_eq. unfold dirac. rewrite mv_vadd, !mv_vsc, !(dirac_proj e _ He). apply vec_ext. intro. unfold vadd, vsc. ring.
    - rewrite (gsum_ext _ (fun m => vadd (mv (proj e P M) (vsc (- (P m * L m)) V1)) (vsc (1 / 3) (mv (proj e P M) (vsc (P m) (mv (gamma_twiddle P m) (mv (slash L) V1))))))).
      + rewrite gsum_add, gsum_sc, !gsum_mv, gsum_P. replace (gsum (fun m => vsc (- (P m * L m)) V1)) with zero.
        * apply vec_ext. intro. unfold vadd, vsc, mv, zero, sum4. ring.
        * apply vec_ext. intro a. unfold gsum, vsc, zero. symmetry. transitivity (- ip P L * V1 a); [unfold ip; ring|]. rewrite T. ring.
      + intro m. rewrite to_r_P_eq. fold L. rewrite !mv_vsc. apply vec_ext. intro. unfold vadd, vsc. ring.
    - rewrite (gsum_ext _ (fun m => vadd (vsc (-(1)) (vsc (L m) (mv (Gamma m) (mv (proj e P M) V1))))
         (vsc (1 / 3) (mv (mm (Gamma m) (mm (proj e P M) (gamma_twiddle P m))) (mv (slash L) V1))))).
      + rewrite gsum_add, !gsum_sc, gsum_gamma_vec, gsum_msum, gamma_proj_gt by exact He. rewrite mv_msc, <- !mv_mm, (slash_trans_proj e L T).
        apply vec_ext. intro a. unfold vadd, vsc, zero. set (x := mv _ _ a). transitivity (- x + (1 / 3 * 3) * x); [ring|].
        replace (1 / 3 * 3) with (RtoC 1) by (field; apply three_neq). ring.
      + intro m. rewrite to_r_P_eq. fold L. rewrite mv_vadd, !mv_vsc, !mv_mm. apply vec_ext. intro. unfold vadd, vsc. ring.
  Qed.
  Lemma to_r_D_eq F Q V1 V2 m : to_r_D F P Q V1 V2 m =
    vadd (vsc (PW P Q m) (mv F (mv (slash (PW P Q)) (mv Gamma5 V1)))) (vsc (- (ip (PW P Q) (PW P Q) / 3)) (mv F (mv (gamma_twiddle P m) (mv Gamma5 V1)))).
  Proof.
    unfold to_r_D. cbv zeta. rewrite dot_ip, mv_mm, <- !(mv_mm F), <- !mv_msc, <- mv_madd. f_equal. apply ten_ext. intros. unfold madd, msc. ring.
  Qed.
  Lemma to_r_D_state e Q V1 V2 : e * e = 1 -> spin3h_state e P M (to_r_D (proj e P M) P Q V1 V2).
  Proof.
    intro He. assert (T := pwave_trans P P_neq Q). set (L := PW P Q) in *. set (w := mv Gamma5 V1). apply state_intro3.
    - intro m. rewrite to_r_D_eq. unfold dirac. rewrite mv_vadd, !mv_vsc, !(dirac_proj e _ He). apply vec_ext. intro. unfold vadd, vsc. ring.
    - rewrite (gsum_ext _ (fun m => vadd (mv (proj e P M) (vsc (P m * L m) (mv (slash L) w))) (vsc (- (ip L L / 3)) (mv (proj e P M) (vsc (P m) (mv (gamma_twiddle P m) w)))))).
      + rewrite gsum_add, gsum_sc, !gsum_mv, gsum_P. replace (gsum (fun m => vsc (P m * L m) (mv (slash L) w))) with zero.
        * apply vec_ext. intro. unfold vadd, vsc, mv, zero, sum4. ring.
        * apply vec_ext. intro a. unfold gsum, vsc, zero. symmetry. transitivity (ip P L * mv (slash L) w a); [unfold ip; ring|]. rewrite T. ring.
      + intro m. rewrite to_r_D_eq. fold L w. rewrite !mv_vsc. apply vec_ext. intro. unfold vadd, vsc. ring.
    - rewrite (gsum_ext _ (fun m => vadd (vsc (L m) (mv (Gamma m) (mv (proj e P M) (mv (slash L) w))))
         (vsc (- (ip L L / 3)) (mv (mm (Gamma m) (mm (proj e P M) (gamma_twiddle P m))) w)))).
      + rewrite gsum_add, !gsum_sc, gsum_gamma_vec, gsum_msum, gamma_proj_gt by exact He. rewrite mv_msc, <- !mv_mm, <- ?mm_assoc, (slash_trans_proj e L T), mm_assoc, slash_sq, mm_sc_r, mm_id_r, mv_msc.
        apply vec_ext. intro a. unfold vadd, vsc, zero. set (x := mv _ _ a). field. apply three_neq.
      + intro m. rewrite to_r_D_eq. fold L w. rewrite mv_vadd, !mv_vsc, !mv_mm. apply vec_ext. intro. unfold vadd, vsc. ring.
  Qed.
  (** The projector *)
  Lemma contract3_eq F V m : contract3 (spin3h F P) V m =
    vadd (vsc (-(1)) (mv F (gsum (fun n => vsc (Spin1Projector P m n) (V n))))) (vsc (1 / 3) (mv F (mv (gamma_twiddle P m) (gsum (fun n => mv (gamma_twiddle P n) (V n)))))).
  Proof.
    change (contract3 (spin3h F P) V m) with (gsum (fun n => mv (spin3h F P m n) (V n))). rewrite (gsum_ext _ (fun n => vadd (vsc (-(1)) (mv F (vsc (Spin1Projector P m n) (V n)))) (vsc (1 / 3) (mv F (mv (gamma_twiddle P m) (mv (gamma_twiddle P n) (V n))))))).
    - now rewrite gsum_add, !gsum_sc, !gsum_mv.
    - intro n. rewrite mv_vsc. rewrite <- !mv_mm, <- ?mm_assoc, <- !mv_msc, <- mv_madd. f_equal. apply ten_ext. intros. unfold spin3h, madd, msc. ring.
  Qed.
  Lemma gsum_swap (f : ix -> ix -> vec) : gsum (fun m => gsum (fun n => f m n)) = gsum (fun n => gsum (fun m => f m n)).
  Proof. apply vec_ext. intro. unfold gsum, ip. ring. Qed.
  (** The vector index of W made transverse *)
  Lemma trans_P W : gsum (fun m => vsc (P m) (gsum (fun n => vsc (Spin1Projector P m n) (W n)))) = zero.
  Proof.
    rewrite (gsum_ext _ (fun m => gsum (fun n => vsc (P m * Spin1Projector P m n) (W n)))).
    - rewrite gsum_swap. rewrite (gsum_ext _ (fun _ => zero)).
      + apply vec_ext. intro. unfold gsum, zero, ip. ring.
      + intro n. apply vec_ext. intro a. unfold gsum, vsc, zero. transitivity (on_left P (Spin1Projector P) n * W n a); [unfold on_left, ip; ring|].
        rewrite S_left, (pwave_P P P_neq). unfold zero. ring.
    - intro m. rewrite <- gsum_sc. apply gsum_ext. intro n. apply vec_ext. intro. unfold vsc. ring.
  Qed.
  Lemma trans_gamma W : gsum (fun m => mv (Gamma m) (gsum (fun n => vsc (Spin1Projector P m n) (W n)))) = gsum (fun n => mv (gamma_twiddle P n) (W n)).
  Proof.
    rewrite (gsum_ext _ (fun m => gsum (fun n => vsc (Spin1Projector P m n) (mv (Gamma m) (W n))))).
    - rewrite gsum_swap. apply gsum_ext. intro n. rewrite (gsum_gamma_vec (fun m => Spin1Projector P m n)). f_equal. rewrite gt_unit. f_equal.
      rewrite <- S_right. apply vec_ext. intro i. unfold on_right. rewrite ip_sc_r, ip_sym, ip_unit, Cmult_assoc, sgn2. ring.
    - intro m. rewrite <- gsum_mv. apply gsum_ext. intro n. apply mv_vsc.
  Qed.
  (** On a transverse index the matrices and those made transverse are the same. *)
  Lemma gamma_gt W : gsum (fun m => vsc (P m) (W m)) = zero -> gsum (fun m => mv (Gamma m) (W m)) = gsum (fun m => mv (gamma_twiddle P m) (W m)).
  Proof.
    intro T. rewrite (gsum_ext (fun m => mv (gamma_twiddle P m) (W m)) (fun m => vadd (mv (Gamma m) (W m)) (vsc (- / ip P P) (mv (slash P) (vsc (P m) (W m)))))).
    - rewrite gsum_add, gsum_sc, gsum_mv, T. apply vec_ext. intro. unfold vadd, vsc, mv, zero, sum4. ring.
    - intro m. rewrite gt_eq, mv_madd, mv_msc, mv_vsc. apply vec_ext. intro. unfold vadd, vsc, Cdiv. ring.
  Qed.
  Lemma project3_state e W : e * e = 1 -> spin3h_state e P M (contract3 (spin3h (proj e P M) P) W).
  Proof.
    intro He. set (F := proj e P M). set (w := gsum (fun n => mv (gamma_twiddle P n) (W n))). set (U := fun m => gsum (fun n => vsc (Spin1Projector P m n) (W n))).
    assert (E : forall m, contract3 (spin3h F P) W m = vadd (vsc (-(1)) (mv F (U m))) (vsc (1 / 3) (mv F (mv (gamma_twiddle P m) w)))) by (intro; apply contract3_eq).
    apply state_intro3.
    - intro m. rewrite E. unfold dirac. rewrite mv_vadd, !mv_vsc. unfold F. rewrite !(dirac_proj e _ He). apply vec_ext. intro. unfold vadd, vsc. ring.
    - rewrite (gsum_ext _ (fun m => vadd (vsc (-(1)) (mv F (vsc (P m) (U m)))) (vsc (1 / 3) (mv F (vsc (P m) (mv (gamma_twiddle P m) w)))))).
      + rewrite gsum_add, !gsum_sc, !gsum_mv, gsum_P. unfold U. rewrite trans_P. apply vec_ext. intro. unfold vadd, vsc, mv, zero, sum4. ring.
      + intro m. rewrite E, !mv_vsc. apply vec_ext. intro. unfold vadd, vsc. ring.
    - rewrite (gsum_ext _ (fun m => vadd (vsc (-(1)) (mv (Gamma m) (mv F (U m)))) (vsc (1 / 3) (mv (mm (Gamma m) (mm F (gamma_twiddle P m))) w)))).
      + rewrite gsum_add, !gsum_sc, gsum_msum. unfold F at 2. rewrite gamma_proj_gt by exact He. rewrite gamma_gt.
        * rewrite (gsum_ext _ (fun m => mv (proj (- e) P M) (mv (gamma_twiddle P m) (U m)))) by (intro m; unfold F; rewrite <- !mv_mm, gt_proj; reflexivity).
          rewrite gsum_mv, <- gamma_gt by apply trans_P. unfold U. rewrite trans_gamma. fold w. rewrite mv_msc. apply vec_ext. intro a. unfold vadd, vsc, zero.
          set (x := mv _ _ a). transitivity (- x + (1 / 3 * 3) * x); [ring|]. replace (1 / 3 * 3) with (RtoC 1) by (field; apply three_neq). ring.
        * rewrite (gsum_ext _ (fun m => mv F (vsc (P m) (U m)))) by (intro m; now rewrite mv_vsc). rewrite gsum_mv. unfold U. rewrite trans_P. apply vec_ext. intro. unfold mv, zero, sum4. ring.
      + intro m. rewrite E, mv_vadd, !mv_vsc, !mv_mm. reflexivity.
  Qed.
  Lemma project3_id e W : e * e = 1 -> spin3h_state e P M W -> contract3 (spin3h (proj e P M) P) W = (fun m => vsc (-(1)) (W m)).
  Proof.
    intros He (D & T & G). assert (T' : gsum (fun m => vsc (P m) (W m)) = zero).
    { apply vec_ext. intro a. rewrite <- (T a) at 1. unfold gsum, vsc, ip. ring. }
    assert (G' : gsum (fun m => mv (gamma_twiddle P m) (W m)) = zero) by (rewrite <- gamma_gt by exact T'; apply vec_ext; intro a; apply G).
    apply functional_extensionality. intro m. rewrite contract3_eq, G'.
    replace (gsum (fun n => vsc (Spin1Projector P m n) (W n))) with (W m).
    - rewrite (proj_dirac e (W m) He (D m)). apply vec_ext. intro. unfold vadd, vsc, mv, zero, sum4. ring.
    - symmetry. apply vec_ext. intro a. unfold gsum, vsc. transitivity (on_right (Spin1Projector P) (fun n => W n a) m); [unfold on_right, ip; ring|].
      rewrite S_right, pwave_id; [reflexivity|]. apply T.
  Qed.
End Projector.
