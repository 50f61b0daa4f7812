From Verif.Wigner Require Import Model Spec Proofs.
From Coq Require Import QArith Qreals Reals Lra List ZArith Lia.
Import ListNotations.
Local Open Scope Z_scope.

(** Spins and projections are given doubled throughout. *)

(** The coefficient is a number, and zero unless projections add up, stay within their spins, and the three spins obey the
    triangle rule. *)
Theorem C56_selection : forall j1 m1 j2 m2 J M, 0 <= J ->
  (exists r, CG j1 m1 j2 m2 J M = Some r) /\ (~ allowed j1 m1 j2 m2 J M -> CG j1 m1 j2 m2 J M = Some 0%R).
Proof. intros j1 m1 j2 m2 J M H. split; [rewrite CG_cg by exact H; eauto|now apply selection]. Qed.
Print Assumptions C56_selection.
(** 1/2 and 1/2 do not couple to 2 *)
Example C56_selection_example : ~ allowed 1 1 1 1 4 2 /\ CG 1 1 1 1 4 2 = Some 0%R.
Proof. assert (N : ~ allowed 1 1 1 1 4 2) by (unfold allowed; lia). split; [exact N|]. apply C56_selection; [lia|exact N]. Qed.
(** <1/2 1/2 1/2 -1/2 | 1 0> is the square root of 1/2, and <3/2 3/2 1 -1 | 1/2 1/2> that of 1/2 too *)
Example C56_value_example : Qeq (norm 1 1 1 (-1) 2 0) (1 # 2) /\ Qeq (total 1 1 1 (-1) 2) 1 /\
  Qeq (norm 3 3 2 (-2) 1 1 * total 3 3 2 (-2) 1 * total 3 3 2 (-2) 1) (1 # 2) /\ Qlt 0 (total 3 3 2 (-2) 1).
Proof. repeat split; vm_compute; reflexivity. Qed.

(** Adding nothing changes nothing. *)
Theorem C56_spin0 : forall j m, projection j m -> CG j m 0 0 j m = Some 1%R /\ CG 0 0 j m j m = Some 1%R.
Proof.
  intros j m P. split; [now apply spin0|]. assert (HJ : 0 <= j) by (destruct P; lia). pose proof (exchange j m 0 0 j m HJ) as E. rewrite Z.add_0_r, Z.sub_diag in E. specialize (E eq_refl).
  destruct (C56_selection 0 0 j m j m HJ) as [[r Er] _]. rewrite Er in *. rewrite (spin0 j m P) in E. cbn in E. f_equal. rewrite E. unfold phase. cbn. lra.
Qed.
Print Assumptions C56_spin0.
Example C56_spin0_example : CG 3 (-1) 0 0 3 (-1) = Some 1%R.
Proof. apply C56_spin0. split; [lia|reflexivity]. Qed.

(** Exchange of the two spins, and reversal of all projections, give the sign (-1)^(j1+j2-J). *)
Theorem C56_exchange : forall j1 m1 j2 m2 J M, 0 <= J -> Z.even (j1 + j2 - J) = true ->
  value (CG j2 m2 j1 m1 J M) = (phase (j1 + j2 - J) * value (CG j1 m1 j2 m2 J M))%R /\
  value (CG j1 (- m1) j2 (- m2) J (- M)) = (phase (j1 + j2 - J) * value (CG j1 m1 j2 m2 J M))%R.
Proof. intros. split; [now apply exchange|now apply reflection]. Qed.
Print Assumptions C56_exchange.
(** the singlet of two spins 1/2 is odd *)
Example C56_exchange_example : phase (1 + 1 - 0) = (-1)%R /\ Qeq (total 1 1 1 (-1) 0) 1 /\ Qeq (total 1 (-1) 1 1 0) (-1) /\ Qeq (norm 1 1 1 (-1) 0 0) (1 # 2).
Proof. repeat split; vm_compute; reflexivity. Qed.

(** Cyclic relation between the three spins. *)
Theorem C56_permute : forall j1 m1 j2 m2 J, 0 <= j1 -> 0 <= J -> projection j2 m2 -> Z.even (j1 - m1) = true -> Z.even (j1 + j2 - J) = true ->
  value (CG j1 m1 j2 m2 J (m1 + m2)) = (phase (j2 + m2) * sqrt ((IZR J + 1) / (IZR j1 + 1)) * value (CG J (- (m1 + m2)) j2 m2 j1 (- m1)))%R.
Proof. exact permute. Qed.
Print Assumptions C56_permute.
(** the doublet in 1/2 x 1 against the triplet in 1/2 x 1/2, up to the sign of the roots *)
Example C56_permute_example : projection 1 1 /\ phase (1 + 1) = (-1)%R /\
  Qeq (norm 1 (-1) 1 1 2 0 * total 1 (-1) 1 1 2 * total 1 (-1) 1 1 2) ((2 + 1) / (1 + 1) * (norm 2 0 1 1 1 1 * total 2 0 1 1 1 * total 2 0 1 1 1)).
Proof. unfold projection. repeat split; try lia; vm_compute; reflexivity. Qed.

(** A projection that its spin does not have (1/2 for spin 1) is not rejected: factorials of half-integers are rounded
    down, and the coefficient is 1 where the physical value is 0. *)
Theorem C56_projection_refuted : exists j1 m1 j2 m2 J M, ~ projection j1 m1 /\ (Q2R (norm j1 m1 j2 m2 J M) = 1 /\ Q2R (total j1 m1 j2 m2 J) = 1)%R /\ CG j1 m1 j2 m2 J M = Some 1%R.
Proof.
  exists 2, 1, 0, 0, 2, 1. split; [intros [_ E]; discriminate|].
  assert (N : Q2R (norm 2 1 0 0 2 1) = 1%R) by (rewrite (Qeq_eqR _ 1%Q) by reflexivity; unfold Q2R; cbn; lra).
  assert (T : Q2R (total 2 1 0 0 2) = 1%R) by (rewrite (Qeq_eqR _ 1%Q) by reflexivity; unfold Q2R; cbn; lra).
  split; [now split|]. unfold CG. cbn [negb]. replace (1 + 0 =? 1) with true by reflexivity. cbn [negb].
  destruct (Qlt_le_dec (norm 2 1 0 0 2 1) 0) as [L | L]; [exfalso; apply Qlt_Rlt in L; rewrite N in L; unfold Q2R in L; cbn in L; lra|]. rewrite N, T, sqrt_1. f_equal. lra.
Qed.
Print Assumptions C56_projection_refuted.

(** The states of different total spin made of two spins are orthogonal, and each is normalised. *)
Theorem C69_orthonormal : forall j1 j2 J J' M, couples j1 j2 J -> couples j1 j2 J' -> projection J M ->
  sum_over (projections j1) (fun m1 => value (CG j1 m1 j2 (M - m1) J M) * value (CG j1 m1 j2 (M - m1) J' M))%R = (if Z.eqb J J' then 1 else 0)%R.
Proof. exact orthonormal. Qed.
Print Assumptions C69_orthonormal.
Example C69_orthonormal_example : couples 4 3 1 /\ couples 4 3 5 /\ projection 1 (-1) /\ projections 3 = [-3; -1; 1; 3].
Proof. unfold couples, projection. repeat split; try lia; reflexivity. Qed.

(** The sum runs over all projections, and over each once. *)
Theorem C69_projections : forall j m, (In m (projections j) <-> projection j m) /\ NoDup (projections j).
Proof. intros j m. split; [apply in_projections|apply nodup_projections]. Qed.
Print Assumptions C69_projections.

(** The helicity couplings of a decay J to j1 j2 are orthonormal in (L, S): for all pairs of projections the list holds the
    coefficient once or, if it is zero, not at all. *)
Theorem C69_recoupling : forall J L S L' S' j1 j2, 0 <= J -> couples j1 j2 S -> couples j1 j2 S' -> couples L S J -> couples L' S' J -> Z.even L = true -> Z.even L' = true ->
  exists l l', recoupling J L S j1 j2 = Some l /\ recoupling J L' S' j1 j2 = Some l' /\
  sum_over (projections j1) (fun m1 => sum_over (projections j2) (fun m2 => coefficient l m1 m2 * coefficient l' m1 m2)%R) = (if ((L =? L') && (S =? S'))%bool then 1 else 0)%R.
Proof.
  intros J L S L' S' j1 j2 HJ C1 C2 C3 C4 E E'. destruct (recoupling_factor J L S j1 j2 HJ) as (l & R & V); [destruct C1; lia|]. destruct (recoupling_factor J L' S' j1 j2 HJ) as (l' & R' & V'); [destruct C2; lia|].
  exists l, l'. split; [exact R|]. split; [exact R'|]. rewrite <- (recoupling_orthonormal J L S L' S' j1 j2) by assumption.
  apply sum_ext. intros m1 I1. apply sum_ext. intros m2 I2. rewrite in_projections in I1, I2. now rewrite V, V'.
Qed.
Print Assumptions C69_recoupling.
Example C69_recoupling_example : couples 2 2 4 /\ couples 4 4 2 /\ couples 2 2 2 /\ couples 4 2 2 /\ Z.even 4 = true.
Proof. unfold couples. repeat split; try lia; reflexivity. Qed.

(** The raising operator of the total spin is the sum of those of the two spins. *)
Theorem C69_raising : forall j1 m1 j2 m2 J, couples j1 j2 J -> projection j1 m1 -> projection j2 m2 -> - J < m1 + m2 <= J ->
  (sqrt (IZR ((J + (m1 + m2)) / 2) * IZR ((J - (m1 + m2)) / 2 + 1)) * value (CG j1 m1 j2 m2 J (m1 + m2)) =
  sqrt (IZR ((j1 + m1) / 2) * IZR ((j1 - m1) / 2 + 1)) * value (CG j1 (m1 - 2) j2 m2 J (m1 + m2 - 2)) +
  sqrt (IZR ((j2 + m2) / 2) * IZR ((j2 - m2) / 2 + 1)) * value (CG j1 m1 j2 (m2 - 2) J (m1 + m2 - 2)))%R.
Proof. exact raising. Qed.
Print Assumptions C69_raising.
Example C69_raising_example : couples 4 3 5 /\ projection 4 2 /\ projection 3 (-1) /\ - 5 < 2 + -1 <= 5.
Proof. unfold couples, projection. repeat split; try lia; reflexivity. Qed.

(** The sign convention of Condon and Shortley. *)
Theorem C69_sign : forall j1 j2 J, couples j1 j2 J -> (0 < value (CG j1 j1 j2 (J - j1) J J))%R.
Proof. exact top_sign. Qed.
Print Assumptions C69_sign.
Example C69_sign_example : couples 3 2 1 /\ Qlt 0 (total 3 3 2 (-2) 1).
Proof. unfold couples. repeat split; try lia; reflexivity. Qed.
