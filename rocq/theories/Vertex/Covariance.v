From Verif.Common Require Import Prelude.
From Coq Require Import Reals Lra Field FunctionalExtensionality.
From Coquelicot Require Import Hierarchy Complex.
From Verif.Vertex Require Import Model Spec Algebra OrbitalProofs BosonProofs DiracProofs FermionProofs.
Local Open Scope C_scope.
Local Notation PW := Orbital_PWave.

Section Cov.
  Variables (A B U U' : ten) (s : C).
  Hypothesis L : lorentz A B s.
  Hypothesis St : stands U U' A s.
  Local Notation Λ := (app A).
  Lemma U_cancel v : mv U' (mv U v) = v. Proof. rewrite <- mv_mm, (proj1 (proj2 St)). apply mv_id. Qed.
  Lemma U_slash p v : mv (slash (Λ p)) (mv U v) = mv U (mv (slash p) v).
  Proof. rewrite <- (proj1 (proj2 (proj2 St))), !mv_mm, U_cancel. reflexivity. Qed.
  Lemma U_g5 v : mv Gamma5 (mv U v) = vsc s (mv U (mv Gamma5 v)).
  Proof.
    pose proof (proj2 (proj2 (proj2 St))) as E. rewrite <- !mv_mm, <- mv_msc. f_equal.
    transitivity (mm Gamma5 (mm (msc s (mm Gamma5 U)) Gamma5)); [now rewrite <- E, mm_assoc, g5_sq, mm_id_r|].
    rewrite mm_sc_l, mm_sc_r, <- !mm_assoc, g5_sq, mm_id_l. reflexivity.
  Qed.
  Lemma mass_inv P : mass (Λ P) = mass P. Proof. unfold mass. now rewrite !dot_ip, (L_ip A B s L). Qed.
  Lemma F_as P v : mv (Spin1hProjector P) v = vsc (1 / 2) (vadd (vsc (1 / mass P) (mv (slash P) v)) v).
  Proof.
    replace (Spin1hProjector P) with (msc (1 / 2) (madd (msc (1 / mass P) (slash P)) Identity)).
    - now rewrite mv_msc, mv_madd, mv_msc, mv_id.
    - apply ten_ext. intros. unfold Spin1hProjector, msc, madd, Cdiv. ring.
  Qed.
  Lemma Fb_as P v : mv (Spin1hbProjector P) v = vsc (1 / 2) (vadd (vsc (- (1) / mass P) (mv (slash P) v)) v).
  Proof.
    replace (Spin1hbProjector P) with (msc (1 / 2) (madd (msc (- (1) / mass P) (slash P)) Identity)).
    - now rewrite mv_msc, mv_madd, mv_msc, mv_id.
    - apply ten_ext. intros. unfold Spin1hbProjector, msc, madd, Cdiv. ring.
  Qed.
  Lemma U_F P v : mv (Spin1hProjector (Λ P)) (mv U v) = mv U (mv (Spin1hProjector P) v).
  Proof. now rewrite !F_as, U_slash, mass_inv, mv_vsc, mv_vadd, mv_vsc. Qed.
  Lemma U_Fb P v : mv (Spin1hbProjector (Λ P)) (mv U v) = mv U (mv (Spin1hbProjector P) v).
  Proof. now rewrite !Fb_as, U_slash, mass_inv, mv_vsc, mv_vadd, mv_vsc. Qed.
  (** The vector index of the matrices *)
  Lemma B_unit n : app B (vsc (sgn n) (unit_ n)) = (fun m => A n m * sgn m).
  Proof.
    apply ip_inj. intro v. rewrite <- (L_adj A B s L), ip_sc_r, ip_sym, ip_unit, Cmult_assoc, sgn2. unfold app, ip, sgn. ring.
  Qed.
  Lemma slash_comb (x : vec) w a : mv (slash x) w a = x I0 * mv (slash (unit_ I0)) w a + x I1 * mv (slash (unit_ I1)) w a + x I2 * mv (slash (unit_ I2)) w a + x I3 * mv (slash (unit_ I3)) w a.
  Proof.
    replace (slash x) with (madd (madd (msc (x I0) (slash (unit_ I0))) (msc (x I1) (slash (unit_ I1)))) (madd (msc (x I2) (slash (unit_ I2))) (msc (x I3) (slash (unit_ I3))))).
    - rewrite !mv_madd, !mv_msc. unfold vadd, vsc. ring.
    - rewrite <- !slash_sc, <- !slash_add. f_equal. apply vec_ext. intros []; unfold vadd, vsc, unit_, Identity; ring.
  Qed.
  Lemma gt_comb P (x : vec) w a : mv (slash (PW P x)) w a = app (fun _ m => x m * sgn m) (fun m => mv (gamma_twiddle P m) w a) I0.
  Proof.
    assert (E : forall i, gamma_twiddle P i = msc (sgn i) (slash (PW P (unit_ i)))) by (intro; now rewrite gt_unit, pwave_sc, slash_sc).
    unfold app. rewrite !E, !mv_msc. unfold vsc.
    replace (PW P x) with (vadd (vadd (vsc (x I0) (PW P (unit_ I0))) (vsc (x I1) (PW P (unit_ I1)))) (vadd (vsc (x I2) (PW P (unit_ I2))) (vsc (x I3) (PW P (unit_ I3))))).
    - rewrite !slash_add, !slash_sc, !mv_madd, !mv_msc. unfold vadd, vsc, sgn. ring.
    - rewrite <- !pwave_sc, <- !pwave_add. f_equal. apply vec_ext. intros []; unfold vadd, vsc, unit_, Identity; ring.
  Qed.
  Lemma mv_comb (X Y : ten) (x : ix -> vec) n : mv X (fun b => app Y (fun m => x m b) n) = (fun a => app Y (fun m => mv X (x m) a) n).
  Proof. apply vec_ext. intro a. unfold app, mv, sum4. ring. Qed.
  Lemma U_gt P n w : mv (gamma_twiddle (Λ P) n) (mv U w) = (fun a => Λ (fun m => mv U (mv (gamma_twiddle P m) w) a) n).
  Proof.
    rewrite gt_unit, <- (L_AB A B s L (vsc (sgn n) (unit_ n))), (L_pwave A B s L), U_slash, B_unit.
    assert (G : mv (slash (PW P (fun m => A n m * sgn m))) w = (fun a => Λ (fun m => mv (gamma_twiddle P m) w a) n)).
    { apply vec_ext. intro b. rewrite gt_comb. unfold app, sgn. ring. }
    rewrite G. apply mv_comb.
  Qed.

  (** *** The vertices *)
  (** A projector that commutes with the map. *)
  Section Vertices.
    Variables F F' : ten.
    Hypothesis HF : forall v, mv F' (mv U v) = mv U (mv F v).
    Variables P Q : vec.
    Lemma L_dot a b : dot (Λ a) (Λ b) = dot a b. Proof. now rewrite !dot_ip, (L_ip A B s L). Qed.
    Lemma L_tv T v : tv (tapp A T) (Λ v) = Λ (tv T v). Proof. now rewrite !tv_eq, (L_right A B s L). Qed.
    Lemma L_gts v w : mv (gt_slash (Λ P) (Λ v)) (mv U w) = mv U (mv (gt_slash P v) w).
    Proof. now rewrite !gt_slash_eq, (L_pwave A B s L), U_slash. Qed.
    Ltac go := rewrite ?mv_mm, ?(L_pwave A B s L), ?(L_D A B s L), ?L_tv, ?(L_eps3 A B s L), ?L_gts, ?U_slash, ?U_g5, ?mv_vsc, ?HF, ?L_dot.
    Lemma fS_S_cov V1 V2 : fS_S F' (mv U V1) V2 = mv U (fS_S F V1 V2).
    Proof. unfold fS_S. go. apply vec_ext. intro. unfold mv, sum4. ring. Qed.
    Lemma fS_S1_cov V1 V2 : fS_S1 F' (mv U V1) V2 = vsc s (mv U (fS_S1 F V1 V2)).
    Proof. unfold fS_S1. go. apply vec_ext. intro. unfold vsc, mv, sum4. ring. Qed.
    Lemma fS_P_cov V1 V2 : fS_P F' (Λ P) (Λ Q) (mv U V1) V2 = vsc s (mv U (fS_P F P Q V1 V2)).
    Proof. unfold fS_P. go. reflexivity. Qed.
    Lemma fS_P1_cov V1 V2 : fS_P1 F' (Λ P) (Λ Q) (mv U V1) V2 = mv U (fS_P1 F P Q V1 V2).
    Proof. unfold fS_P1. go. apply vec_ext. intro. unfold mv, sum4. ring. Qed.
    Lemma Vf_S_cov V1 V2 : Vf_S F' (Λ P) (Λ Q) (Λ V1) (mv U V2) = vsc s (mv U (Vf_S F P Q V1 V2)).
    Proof. unfold Vf_S. go. reflexivity. Qed.
    Lemma Vf_S1_cov V1 V2 : Vf_S1 F' (Λ P) (Λ Q) (Λ V1) (mv U V2) = mv U (Vf_S1 F P Q V1 V2).
    Proof. unfold Vf_S1. go. reflexivity. Qed.
    Lemma Vf_P_cov V1 V2 : Vf_P F' (Λ P) (Λ Q) (Λ V1) (mv U V2) = mv U (Vf_P F P Q V1 V2).
    Proof. unfold Vf_P. go. apply vec_ext. intro. unfold mv, sum4. ring. Qed.
    Lemma Vf_P1_cov V1 V2 : Vf_P1 F' (Λ P) (Λ Q) (Λ V1) (mv U V2) = vsc (s * s) (mv U (Vf_P1 F P Q V1 V2)).
    Proof. unfold Vf_P1. cbv zeta. go. rewrite <- app_sc. go. rewrite !gt_slash_eq, pwave_sc, slash_sc, mv_msc. go. apply vec_ext. intro. unfold vsc. ring. Qed.
    Lemma Vf_P2_cov V1 V2 : Vf_P2 F' (Λ P) (Λ Q) (Λ V1) (mv U V2) = vsc s (mv U (Vf_P2 F P Q V1 V2)).
    Proof. unfold Vf_P2. go. apply vec_ext. intro. unfold vsc, mv, sum4. ring. Qed.
    Lemma Vf_P3_cov V1 V2 : Vf_P3 F' (Λ P) (Λ Q) (Λ V1) (mv U V2) = vsc s (mv U (Vf_P3 F P Q V1 V2)).
    Proof. unfold Vf_P3. cbv zeta. go. rewrite <- app_sc. go. rewrite !gt_slash_eq, pwave_sc, slash_sc, mv_msc. go. reflexivity. Qed.
    Lemma Vf_D_cov V1 V2 : Vf_D F' (Λ P) (Λ Q) (Λ V1) (mv U V2) = vsc s (mv U (Vf_D F P Q V1 V2)).
    Proof. unfold Vf_D. cbv zeta. go. reflexivity. Qed.
    Lemma Vf_D1_cov V1 V2 : Vf_D1 F' (Λ P) (Λ Q) (Λ V1) (mv U V2) = mv U (Vf_D1 F P Q V1 V2).
    Proof. unfold Vf_D1. cbv zeta. go. reflexivity. Qed.
    Lemma Tf_P_cov V1 V2 : Tf_P F' (Λ P) (Λ Q) (tapp A V1) (mv U V2) = mv U (Tf_P F P Q V1 V2).
    Proof. unfold Tf_P. go. reflexivity. Qed.
    Lemma left_mv v : mv left_handed v = vadd v (vsc (-(1)) (mv Gamma5 v)).
    Proof. rewrite <- (mv_id v) at 2. rewrite <- mv_msc, <- mv_madd. f_equal. apply ten_ext. intros. unfold left_handed, madd, msc. ring. Qed.
    Lemma right_mv v : mv right_handed v = vadd v (mv Gamma5 v).
    Proof. rewrite <- (mv_id v) at 2. rewrite <- mv_madd. f_equal. Qed.
    Lemma hand_U : (s = 1 -> forall v, mv left_handed (mv U v) = mv U (mv left_handed v) /\ mv right_handed (mv U v) = mv U (mv right_handed v)) /\
      (s = -(1) -> forall v, mv left_handed (mv U v) = mv U (mv right_handed v) /\ mv right_handed (mv U v) = mv U (mv left_handed v)).
    Proof.
      split; intros E v; rewrite !left_mv, !right_mv, !U_g5, !mv_vadd, ?mv_vsc, E; split; apply vec_ext; intro; unfold vadd, vsc; ring.
    Qed.
    Lemma Vf_SLR_cov V1 V2 :
      (s = 1 -> Vf_SL F' (Λ P) (Λ Q) (Λ V1) (mv U V2) = mv U (Vf_SL F P Q V1 V2) /\ Vf_SR F' (Λ P) (Λ Q) (Λ V1) (mv U V2) = mv U (Vf_SR F P Q V1 V2)) /\
      (s = -(1) -> Vf_SL F' (Λ P) (Λ Q) (Λ V1) (mv U V2) = mv U (Vf_SR F P Q V1 V2) /\ Vf_SR F' (Λ P) (Λ Q) (Λ V1) (mv U V2) = mv U (Vf_SL F P Q V1 V2)).
    Proof.
      destruct hand_U as (H1 & H2). unfold Vf_SL, Vf_SR. rewrite !mv_mm. split; intro E.
      - destruct (H1 E V2) as (-> & ->). go. split; reflexivity.
      - destruct (H2 E V2) as (-> & ->). go. split; reflexivity.
    Qed.
    Lemma r_contract V1 v : (fun b => sum4 (fun m => sgn m * rapp A U V1 m b * Λ v m)) = mv U (fun b => sum4 (fun m => sgn m * V1 m b * v m)).
    Proof.
      apply vec_ext. intro b. transitivity (ip (Λ (fun k => mv U (V1 k) b)) (Λ v)); [unfold rapp, ip, sum4, sgn; ring|].
      rewrite (L_ip A B s L). unfold ip, mv, sum4, sgn. ring.
    Qed.
    Lemma rS_P_cov V1 V2 : rS_P F' (Λ P) (Λ Q) (rapp A U V1) V2 = mv U (rS_P F P Q V1 V2).
    Proof. unfold rS_P. go. rewrite r_contract, HF. apply vec_ext. intro. unfold mv at 1 3, sum4. ring. Qed.
    Lemma rS_P1_cov V1 V2 : rS_P1 F' (Λ P) (Λ Q) (rapp A U V1) V2 = vsc s (mv U (rS_P1 F P Q V1 V2)).
    Proof.
      unfold rS_P1. go. rewrite r_contract, U_g5, mv_vsc, HF. apply vec_ext. intro. set (x := mv F _). clearbody x. unfold vsc, mv, sum4. ring.
    Qed.
    Lemma to_r_P_cov V1 V2 : to_r_P F' (Λ P) (Λ Q) (mv U V1) V2 = rapp A U (to_r_P F P Q V1 V2).
    Proof.
      apply functional_extensionality. intro n. apply vec_ext. intro a. unfold rapp.
      replace (fun k => mv U (to_r_P F P Q V1 V2 k) a) with (fun k => - PW P Q k * mv U (mv F V1) a + 1 / 3 * mv U (mv F (mv (gamma_twiddle P k) (mv (slash (PW P Q)) V1))) a).
      2:{ apply vec_ext. intro k. rewrite to_r_P_eq, mv_vadd, !mv_vsc. reflexivity. }
      rewrite to_r_P_eq. go.
      replace (mv F' (mv (gamma_twiddle (Λ P) n) (mv U (mv (slash (PW P Q)) V1)))) with (fun a => Λ (fun m => mv U (mv F (mv (gamma_twiddle P m) (mv (slash (PW P Q)) V1))) a) n).
      - unfold vadd, vsc, app. ring.
      - set (w := mv (slash (PW P Q)) V1). rewrite U_gt, mv_comb. apply vec_ext. intro b. f_equal. apply vec_ext. intro k. now rewrite HF.
    Qed.
    Lemma to_r_D_cov V1 V2 : to_r_D F' (Λ P) (Λ Q) (mv U V1) V2 = rapp A U (fun m => vsc s (to_r_D F P Q V1 V2 m)).
    Proof.
      apply functional_extensionality. intro n. apply vec_ext. intro a. unfold rapp.
      set (w := mv Gamma5 V1).
      replace (fun k => mv U (vsc s (to_r_D F P Q V1 V2 k)) a) with (fun k => s * (PW P Q k * mv U (mv F (mv (slash (PW P Q)) w)) a + (- (ip (PW P Q) (PW P Q) / 3)) * mv U (mv F (mv (gamma_twiddle P k) w)) a)).
      2:{ apply vec_ext. intro k. rewrite to_r_D_eq, mv_vsc, mv_vadd, !mv_vsc. reflexivity. }
      rewrite to_r_D_eq, (L_pwave A B s L), (L_ip A B s L), U_g5. fold w. rewrite !mv_vsc, U_slash, HF, U_gt, mv_comb.
      assert (G : (fun a => Λ (fun m => mv F' (fun b => mv U (mv (gamma_twiddle P m) w) b) a) n) = (fun a => Λ (fun m => mv U (mv F (mv (gamma_twiddle P m) w)) a) n)).
      { apply vec_ext. intro b. f_equal. apply vec_ext. intro k. now rewrite <- HF. }
      rewrite G. unfold vadd, vsc, app. ring.
    Qed.
    Lemma rS_D_pair X V1 V2 : rS_D X P Q V1 V2 = (fun a => pair2 (Orbital_DWave P Q) (fun m k => mv X (mv Gamma5 (mv (gamma_twiddle P m) (V1 k))) a) * V2).
    Proof.
      apply vec_ext. intro a. unfold rS_D, pair2. f_equal. set (W := fun m k => mv X (mv Gamma5 (mv (gamma_twiddle P m) (V1 k))) a).
      transitivity (sum4 (fun m => sum4 (fun k => sgn m * sgn k * (W m k * Orbital_DWave P Q m k)))).
      - unfold W, sum4. rewrite !mv_mm. reflexivity.
      - change (sum4 (fun m => sum4 (fun k => sgn m * sgn k * (W m k * Orbital_DWave P Q m k))) = ip (fun _ => 1) (fun i => ip (Orbital_DWave P Q i) (W i))).
        clearbody W. unfold sum4, ip, sgn. ring.
    Qed.
  End Vertices.
  Section R.
    Variables F F' : ten.
    Hypothesis HF : forall v, mv F' (mv U v) = mv U (mv F v).
    Lemma rS_D_cov P Q V1 V2 : rS_D F' (Λ P) (Λ Q) (rapp A U V1) V2 = vsc s (mv U (rS_D F P Q V1 V2)).
    Proof.
      rewrite !rS_D_pair, (L_D A B s L). apply vec_ext. intro a.
      set (W := fun m k => mv F (mv Gamma5 (mv (gamma_twiddle P m) (V1 k)))).
      replace (fun m k => mv F' (mv Gamma5 (mv (gamma_twiddle (Λ P) m) (rapp A U V1 k))) a) with (tapp A (fun m k => s * mv U (W m k) a)).
      - rewrite (L_pair2 A B s L). change (fun m k => mv F (mv Gamma5 (mv (gamma_twiddle P m) (V1 k)))) with W.
        unfold vsc. change (pair2 (Orbital_DWave P Q) (fun m k => s * mv U (W m k) a) * V2 = s * mv U (fun b => pair2 (Orbital_DWave P Q) (fun m k => W m k b) * V2) a).
        clearbody W. unfold pair2, ip, mv, sum4. ring.
      - apply ten_ext. intros m k.
        assert (E : rapp A U V1 k = mv U (fun b => Λ (fun j => V1 j b) k)).
        { rewrite mv_comb. reflexivity. }
        rewrite E, U_gt, mv_comb, mv_comb. unfold tapp. f_equal. apply vec_ext. intro i.
        assert (E2 : forall x, mv F' (mv Gamma5 (mv U x)) = vsc s (mv U (mv F (mv Gamma5 x)))) by (intro; now rewrite U_g5, mv_vsc, HF).
        rewrite E2. unfold vsc.
        rewrite (mv_comb (gamma_twiddle P i) A V1 k), (mv_comb Gamma5 A (fun j => mv (gamma_twiddle P i) (V1 j)) k), (mv_comb F A (fun j => mv Gamma5 (mv (gamma_twiddle P i) (V1 j))) k).
        rewrite (mv_comb U A (fun j => mv F (mv Gamma5 (mv (gamma_twiddle P i) (V1 j)))) k). unfold app, W. ring.
    Qed.
  End R.
  Section Currents.
    Hypothesis K : keeps_bar U U'.
    Lemma bar_sandwich u M v : sandwich (Bar (mv U u)) M v = sum4 (fun a => Bar u a * mv U' (mv M v) a).
    Proof. unfold sandwich. rewrite K. set (x := Bar u). set (y := mv M v). clearbody x y. unfold mv, sum4. ring. Qed.
    Lemma S_fF_S_cov P Q V1 V2 : S_fF_S (Λ P) (Λ Q) (mv U V1) (mv U V2) = S_fF_S P Q V1 V2.
    Proof.
      unfold S_fF_S. transitivity (sandwich (Bar (mv U V2)) Identity (mv U V1)); [unfold sandwich; now rewrite mv_id|].
      now rewrite bar_sandwich, mv_id, U_cancel.
    Qed.
    Lemma S_fF_S1_cov P Q V1 V2 : S_fF_S1 (Λ P) (Λ Q) (mv U V1) (mv U V2) = s * S_fF_S1 P Q V1 V2.
    Proof. unfold S_fF_S1. rewrite bar_sandwich, U_g5, mv_vsc, U_cancel. unfold sandwich, vsc, sum4. ring. Qed.
    Lemma V_fF_S_cov P Q V1 V2 : V_fF_S (Λ P) (Λ Q) (mv U V1) (mv U V2) = Λ (V_fF_S P Q V1 V2).
    Proof.
      apply vec_ext. intro n. unfold V_fF_S. rewrite bar_sandwich, U_gt, mv_comb. unfold app. rewrite !U_cancel. unfold sandwich, sum4. ring.
    Qed.
    Lemma gamma_U n w : mv (Gamma n) (mv U w) = (fun a => Λ (fun m => mv U (mv (Gamma m) w) a) n).
    Proof.
      rewrite gamma_slash, <- (L_AB A B s L (vsc (sgn n) (unit_ n))), U_slash, B_unit. rewrite <- (mv_comb U A (fun m => mv (Gamma m) w) n). f_equal.
      apply vec_ext. intro a. rewrite slash_comb. unfold app. rewrite !gamma_slash, !slash_sc, !mv_msc. unfold vsc, sgn. ring.
    Qed.
    Lemma V_fF_S1_cov P Q V1 V2 : V_fF_S1 (Λ P) (Λ Q) (mv U V1) (mv U V2) = vsc s (Λ (V_fF_S1 P Q V1 V2)).
    Proof.
      apply vec_ext. intro n. unfold V_fF_S1, Gamma4Vec. rewrite bar_sandwich, mv_mm, gamma_U, mv_comb, mv_comb. unfold app, vsc.
      rewrite !U_g5, !mv_vsc, !U_cancel. unfold sandwich. rewrite !mv_mm. unfold vsc, sum4. ring.
    Qed.
    Lemma current_cov (H H' : ten) V1 V2 : (forall v, mv H' (mv U v) = mv U (mv H v)) ->
      (fun n => sandwich (Bar (mv U V1)) (mm (Gamma4Vec n) H') (mv U V2)) = Λ (fun n => sandwich (Bar V1) (mm (Gamma4Vec n) H) V2).
    Proof.
      intro E. apply vec_ext. intro n. unfold Gamma4Vec. rewrite bar_sandwich, mv_mm, E, gamma_U, mv_comb. unfold app. rewrite !U_cancel. unfold sandwich. rewrite !mv_mm. unfold sum4. ring.
    Qed.
    Lemma V_fF_P_cov P Q V1 V2 :
      (s = 1 -> V_fF_PL (Λ P) (Λ Q) (mv U V1) (mv U V2) = Λ (V_fF_PL P Q V1 V2) /\ V_fF_PR (Λ P) (Λ Q) (mv U V1) (mv U V2) = Λ (V_fF_PR P Q V1 V2)) /\
      (s = -(1) -> V_fF_PL (Λ P) (Λ Q) (mv U V1) (mv U V2) = Λ (V_fF_PR P Q V1 V2) /\ V_fF_PR (Λ P) (Λ Q) (mv U V1) (mv U V2) = Λ (V_fF_PL P Q V1 V2)).
    Proof.
      destruct hand_U as (H1 & H2). unfold V_fF_PL, V_fF_PR. rewrite !tv_eq, !S_right. split; intro E; split.
      - rewrite (current_cov left_handed left_handed) by apply (H1 E). apply (L_pwave A B s L).
      - rewrite (current_cov right_handed right_handed) by apply (H1 E). apply (L_pwave A B s L).
      - rewrite (current_cov right_handed left_handed) by apply (H2 E). apply (L_pwave A B s L).
      - rewrite (current_cov left_handed right_handed) by apply (H2 E). apply (L_pwave A B s L).
    Qed.
  End Currents.
End Cov.
