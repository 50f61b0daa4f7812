From Verif.Common Require Import Prelude.
From Coq Require Import Reals Lra Field FunctionalExtensionality.
From Coquelicot Require Import Hierarchy Complex.
From Verif.Vertex Require Import Model Spec Algebra OrbitalProofs.
Local Open Scope C_scope.
Local Notation PW := Orbital_PWave.

(** ** The vertices in terms of products of vectors and volumes *)
Lemma S_VV_S_eq P Q V1 V2 : S_VV_S P Q V1 V2 = ip V1 V2. Proof. apply dot_ip. Qed.
Lemma S_VV_S1_eq P Q V1 V2 : S_VV_S1 P Q V1 V2 = ip (PW P V1) V2. Proof. unfold S_VV_S1. now rewrite dot_ip, vt_eq, S_left. Qed.
Lemma S_VV_D_eq P Q V1 V2 : S_VV_D P Q V1 V2 = ip (on_right (Orbital_DWave P Q) V1) V2.
Proof. unfold S_VV_D. now rewrite dot_ip, vt_eq, D_left. Qed.
Lemma S_VV_P_eq P Q V1 V2 : S_VV_P P Q V1 V2 = - volume V1 V2 (PW P Q) P.
Proof. unfold S_VV_P. cbv zeta. now rewrite dot_ip, vt_eq, on_left_right, eps2_first_right, eps3_ip. Qed.
Lemma S_VS_P_eq P Q V1 V2 : S_VS_P P Q V1 V2 = ip V1 (PW P Q) * V2.
Proof. unfold S_VS_P. f_equal. apply dot_ip. Qed.
Lemma V_SS_P_eq P Q V1 V2 : V_SS_P P Q V1 V2 = vsc (V1 * V2) (PW P Q).
Proof. apply vec_ext. intro. unfold V_SS_P, vsc. ring. Qed.
Lemma V_VS_P_eq P Q V1 V2 : V_VS_P P Q V1 V2 = vsc V2 (eps3 V1 (PW P Q) P).
Proof. apply vec_ext. intro. unfold V_VS_P, vsc. rewrite tv_eq, eps2_first_right. ring. Qed.
Lemma V_VS_S_eq P Q V1 V2 : V_VS_S P Q V1 V2 = vsc V2 (PW P V1).
Proof. apply vec_ext. intro. unfold V_VS_S, vsc. rewrite tv_eq, S_right. ring. Qed.
Lemma V_VS_D_eq P Q V1 V2 : V_VS_D P Q V1 V2 = vsc V2 (PW P (on_right (Orbital_DWave P Q) V1)).
Proof. apply vec_ext. intro. unfold V_VS_D, vsc. rewrite tv_eq, tt_eq, on_right_prod, S_right. ring. Qed.
Lemma V_VV_P_eq P Q V1 V2 : V_VV_P P Q V1 V2 = vsc (ip V1 V2) (PW P Q).
Proof. apply vec_ext. intro. unfold V_VV_P, vsc. rewrite dot_ip. ring. Qed.
Lemma V_VV_P1_eq P Q V1 V2 : V_VV_P1 P Q V1 V2 = vsc (-(1)) (eps3 P (PW P Q) (PW P (eps3 P V1 V2))).
Proof. unfold V_VV_P1. now rewrite eps3_last_eq, vt_eq, S_left. Qed.
Lemma V_VV_P2_eq P Q V1 V2 : V_VV_P2 P Q V1 V2 = on_left (PW P Q) (project2 P (fun i j => V1 i * V2 j)).
Proof.
  unfold V_VV_P2. rewrite vt_eq. f_equal. apply ten_ext. intros a b. unfold project2, contract2, ip, sum4, sgn.
  set (S := Spin2Projector P). clearbody S. ring.
Qed.
Lemma V_VV_S_eq P Q V1 V2 : V_VV_S P Q V1 V2 = PW P (eps3 P V1 V2). Proof. unfold V_VV_S. now rewrite vt_eq, S_left. Qed.
Lemma T_VS_D_eq P Q V1 V2 : T_VS_D P Q V1 V2 =
  tsc (- (1 / 2) * V2) (tadd (fun i j => eps3 P Q V1 i * PW P Q j) (fun i j => PW P Q i * eps3 P Q V1 j)).
Proof. apply ten_ext. intros. unfold T_VS_D, tsc, tadd. ring. Qed.
Lemma T_TS_S_eq P Q V1 V2 : T_TS_S P Q V1 V2 = tsc V2 (tadd (both P V1) (tsc (- (pair2 V1 (Spin1Projector P) / 3)) (Spin1Projector P))).
Proof. apply ten_ext. intros. unfold T_TS_S, tsc, tadd, both. rewrite !tt_eq, dot2_eq. unfold Cdiv. ring. Qed.
Lemma T_VS_P_eq P Q V1 V2 : T_VS_P P Q V1 V2 = tsc V2 (tadd (tsc (1 / 2) (tadd (fun i j => PW P Q i * PW P V1 j) (fun i j => PW P V1 i * PW P Q j)))
   (tsc (- (ip (PW P Q) V1 / 3)) (Spin1Projector P))).
Proof. apply ten_ext. intros. unfold T_VS_P, tsc, tadd. rewrite !tv_eq, S_right, dot_ip. unfold Cdiv. ring. Qed.
Lemma T_SS_D_eq P Q V1 V2 : T_SS_D P Q V1 V2 = tsc (V1 * V2) (Orbital_DWave P Q).
Proof. apply ten_ext. intros. unfold T_SS_D, tsc. ring. Qed.
Lemma S_TV_P_eq P Q V1 V2 : S_TV_P P Q V1 V2 = ip (PW P Q) (on_right V1 V2).
Proof. unfold S_TV_P. now rewrite dot_ip, vt_eq, on_left_right. Qed.
Lemma S_TS_D_eq P Q V1 V2 : S_TS_D P Q V1 V2 = V2 * pair2 (Orbital_DWave P Q) V1. Proof. unfold S_TS_D. now rewrite dot2_eq. Qed.
Lemma S_TV_D_eq P Q V1 V2 : S_TV_D P Q V1 V2 = pair2 (prod2 V1 (Orbital_DWave P Q)) (eps2_first P V2).
Proof. unfold S_TV_D. now rewrite dot2_eq, tt_eq. Qed.
Lemma V_TS_P_eq P Q V1 V2 : V_TS_P P Q V1 V2 = vsc V2 (PW P (on_right V1 (PW P Q))).
Proof.
  apply vec_ext. intro i. unfold V_TS_P, vsc. cbv zeta. rewrite <- (S_right P (on_right V1 (PW P Q))). set (S := Spin1Projector P). set (L := PW P Q). clearbody S L.
  unfold on_right, ip, sum4, sgn. ring.
Qed.
Lemma V_TS_D_eq P Q V1 V2 : V_TS_D P Q V1 V2 = eps3 P Q (on_right V1 (vsc (-(1)) (PW P Q))).
Proof. unfold V_TS_D. rewrite tv_eq, tt_eq, on_right_prod, eps2_outer_right. reflexivity. Qed.

(** ** Transversality *)
Lemma transverse2_sym P T : symmetric T -> on_right T P = zero -> transverse2 P T.
Proof. intros Sy H. split; [|exact H]. rewrite on_left_flip, <- H. f_equal. apply ten_ext. intros. apply Sy. Qed.
Lemma eps3_self1 P a b : ip P (eps3 P a b) = 0. Proof. rewrite eps3_ip, volume_12. ring. Qed.
Lemma eps3_self3 P a b : ip P (eps3 a b P) = 0. Proof. rewrite eps3_ip, volume_14. ring. Qed.
(** The span of P and Q contains L. *)
Lemma eps3_pwave P Q V : ip (PW P Q) (eps3 P Q V) = 0.
Proof. rewrite pwave_eq, ip_add_l, ip_sc_l, !eps3_ip, volume_13, volume_12. ring. Qed.
Section Transverse.
  Variables (P Q : vec).
  Hypothesis N : ip P P <> 0.
  Lemma sc_trans x v : transverse P v -> transverse P (vsc x v). Proof. unfold transverse. intro H. rewrite ip_sc_r, H. ring. Qed.
  Lemma V_VV_P2_trans V1 V2 : transverse P (V_VV_P2 P Q V1 V2).
  Proof.
    rewrite V_VV_P2_eq. unfold transverse. rewrite ip_sym, on_left_right.
    destruct (project2_state P N (fun i j => V1 i * V2 j)) as (_ & (_ & H) & _). rewrite H. unfold ip, zero. ring.
  Qed.
  Lemma state_sc x T : spin2_state P T -> spin2_state P (tsc x T).
  Proof.
    intros (Sy & (A & B) & Z). repeat split.
    - intros i j. unfold tsc. now rewrite Sy.
    - rewrite on_left_flip. change (fun i j => tsc x T j i) with (tsc x (fun i j => T j i)). rewrite on_right_sc, <- on_left_flip, A.
      apply vec_ext. intro. unfold vsc, zero. ring.
    - rewrite on_right_sc, B. apply vec_ext. intro. unfold vsc, zero. ring.
    - rewrite trace_sc, Z. ring.
  Qed.
  Lemma state_intro T : symmetric T -> on_right T P = zero -> trace T = 0 -> spin2_state P T.
  Proof. intros A B Z. split; [exact A|]. split; [now apply transverse2_sym|exact Z]. Qed.
  Lemma T_VS_D_state V1 V2 : spin2_state P (T_VS_D P Q V1 V2).
  Proof.
    rewrite T_VS_D_eq. apply state_sc, state_intro.
    - intros i j. unfold tadd. ring.
    - rewrite on_right_add, !on_right_outer. rewrite !(ip_sym _ P), eps3_self1, pwave_trans by exact N. apply vec_ext. intro. unfold vadd, vsc, zero. ring.
    - rewrite trace_add, !trace_outer, (ip_sym (eps3 _ _ _)), eps3_pwave. ring.
  Qed.
  Lemma T_TS_S_state V1 V2 : symmetric V1 -> spin2_state P (T_TS_S P Q V1 V2).
  Proof.
    intro Sy. rewrite T_TS_S_eq. apply state_sc, state_intro.
    - intros i j. unfold tadd, tsc. rewrite (S_sym P i j). f_equal. change (both P V1 i j) with ((fun i j => both P V1 j i) j i).
      rewrite both_flip. f_equal. apply ten_ext. intros. apply Sy.
    - rewrite on_right_add, on_right_sc, S_right, both_right, pwave_P by exact N. rewrite zero_right, pwave_zero.
      apply vec_ext. intro. unfold vadd, vsc, zero. ring.
    - rewrite trace_add, trace_sc, trace_S, trace_both by exact N.
      replace (pair2 V1 (Spin1Projector P)) with (pair2 (Spin1Projector P) V1) by (unfold pair2, ip; ring). field. apply three_neq.
  Qed.
  Lemma T_VS_P_state V1 V2 : spin2_state P (T_VS_P P Q V1 V2).
  Proof.
    rewrite T_VS_P_eq. apply state_sc, state_intro.
    - intros i j. unfold tadd, tsc. rewrite (S_sym P i j). ring.
    - rewrite on_right_add, !on_right_sc, S_right, on_right_add, !on_right_outer, pwave_P by exact N.
      rewrite !(ip_sym _ P), !pwave_trans by exact N. apply vec_ext. intro. unfold vadd, vsc, zero. ring.
    - rewrite trace_add, !trace_sc, trace_S, trace_add, !trace_outer by exact N.
      rewrite (ip_sym (PW P V1)), <- pwave_adj, pwave_idem by exact N. set (n := ip _ _).
      transitivity ((1 / 2 + 1 / 2) * n - n * (/ 3 * 3)); [unfold Cdiv; ring|]. rewrite half_half. field. apply three_neq.
  Qed.
  Lemma T_SS_D_state V1 V2 : spin2_state P (T_SS_D P Q V1 V2).
  Proof. rewrite T_SS_D_eq. apply state_sc. split; [intros i j; apply D_sym|]. split; [now apply D_trans|now apply trace_D]. Qed.
End Transverse.

(** ** Covariance *)
Section Cov.
  Variables (A B : ten) (s : C).
  Hypothesis L : lorentz A B s.
  Local Notation "'Λ'" := (app A).
  Local Notation "'Λ2'" := (tapp A).
  Lemma L_pwave p q : PW (Λ p) (Λ q) = Λ (PW p q).
  Proof. rewrite !pwave_eq, !(L_ip A B s L), app_add, app_sc. reflexivity. Qed.
  Lemma L_S P : Spin1Projector (Λ P) = Λ2 (Spin1Projector P).
  Proof. apply (L_ten_inj A B s L). intro v. now rewrite (L_right A B s L), !S_right, L_pwave. Qed.
  Lemma tapp_add T U : Λ2 (tadd T U) = tadd (Λ2 T) (Λ2 U). Proof. apply ten_ext; intros; unfold tapp, tadd, app; ring. Qed.
  Lemma tapp_sc x T : Λ2 (tsc x T) = tsc x (Λ2 T). Proof. apply ten_ext; intros; unfold tapp, tsc, app; ring. Qed.
  Lemma tapp_outer a b : Λ2 (fun i j => a i * b j) = (fun i j => Λ a i * Λ b j). Proof. apply ten_ext; intros; unfold tapp, app; ring. Qed.
  Lemma L_D P Q : Orbital_DWave (Λ P) (Λ Q) = Λ2 (Orbital_DWave P Q).
  Proof. rewrite !D_eq, tapp_add, tapp_sc, tapp_outer, !L_pwave, !(L_ip A B s L), L_S. reflexivity. Qed.
  Lemma L_both P T : both (Λ P) (Λ2 T) = Λ2 (both P T).
  Proof. unfold both. now rewrite L_S, !(L_prod A B s L). Qed.
  Lemma L_project2 P T : project2 (Λ P) (Λ2 T) = Λ2 (project2 P T).
  Proof.
    rewrite !project2_eq, tapp_add, !tapp_sc, tapp_add, L_S, (L_pair2 A B s L), L_both. do 3 f_equal.
    apply ten_ext. intros i j. rewrite (tapp_flip A). reflexivity.
  Qed.
End Cov.
