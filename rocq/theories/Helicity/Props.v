(** C89: helicity amplitudes of decay chains. *)
From Coq Require Import Reals ZArith List Lia Lra Bool Ascii.
From Coquelicot Require Import Complex.
From Verif.Common Require Import Prelude.
From Verif.Wigner Require Import Model Spec.
From Verif.Helicity Require Import Model Spec Proofs.
Import ListNotations.
Local Open Scope Z_scope.

(** Every chain has an amplitude for every projection of its spin. *)
Theorem C89_amplitudes : forall d, sound d -> exists A, amplitudes d A.
Proof. exact amplitudes_exist. Qed.
Print Assumptions C89_amplitudes.
Definition pion : decay := Stable false 0 (fun _ => RtoC 0).
Definition rho : decay := Decay 2 2 0 (1, 0, 1)%R pion pion.
Lemma wave_rho : wave 2 2 0 0 0. Proof. unfold wave, couples. repeat split; lia. Qed.
Lemma wave_a1 : wave 2 0 2 2 0. Proof. unfold wave, couples. repeat split; lia. Qed.
Lemma wave_a1_D : wave 2 4 2 2 0. Proof. unfold wave, couples. repeat split; lia. Qed.
Lemma sound_rho : sound rho.
Proof. cbn. repeat split; try lia; [lra|intros _; exists 0; exact wave_rho]. Qed.
Example C89_amplitudes_example : sound (Decay 2 0 0 (1, 2, 3)%R rho pion) /\ sound (Decay 2 4 0 (1, 2, 3)%R rho pion).
Proof. split; (split; [lia|split; [lia|split; [cbn; lra|split; [reflexivity|split; [|split; [exact sound_rho|cbn; lia]]]]]]); intros _; exists 2; [exact wave_a1|exact wave_a1_D]. Qed.

(** What a particle does when averaged over its projections does not depend on the direction in which it decays: neither the rate nor the
    interference of two ways to decay. *)
Theorem C89_isotropic : forall J L S L' S' d1 d2 e1 e2 P Q, sound (Decay J L S P d1 d2) -> sound (Decay J L' S' P e1 e2) -> pt2 Q <> 0%R ->
  exists A B A' B', amplitudes (Decay J L S P d1 d2) A /\ amplitudes (Decay J L' S' P e1 e2) B /\ amplitudes (Decay J L S Q d1 d2) A' /\ amplitudes (Decay J L' S' Q e1 e2) B' /\
    sumC (projections J) (fun M => A M * Cconj (B M))%C = sumC (projections J) (fun M => A' M * Cconj (B' M))%C.
Proof. exact rate. Qed.
Print Assumptions C89_isotropic.
Example C89_isotropic_example : sound (Decay 2 0 0 (1, 2, 3)%R rho pion) /\ sound (Decay 2 4 0 (1, 2, 3)%R rho pion) /\ pt2 (0, -1, 0)%R <> 0%R /\ projections 2 = [-2; 0; 2].
Proof. split; [apply C89_amplitudes_example|]. split; [apply C89_amplitudes_example|]. split; [cbn; lra|reflexivity]. Qed.

(** Different L and S do not interfere in the total rate and each has the rate one. *)
Theorem C89_waves : forall J L S L' S' j1 j2 (d1 d2 : Z -> decay) P, wave J L S j1 j2 -> wave J L' S' j1 j2 -> pt2 P <> 0%R ->
  (forall m, projection j1 m -> definite (d1 m) j1 m) -> (forall m, projection j2 m -> definite (d2 m) j2 m) -> exists A A' : Z -> Z -> Z -> C,
  (forall m1 m2, projection j1 m1 -> projection j2 m2 -> amplitudes (Decay J L S P (d1 m1) (d2 m2)) (A m1 m2) /\ amplitudes (Decay J L' S' P (d1 m1) (d2 m2)) (A' m1 m2)) /\
  sumC (projections j1) (fun m1 => sumC (projections j2) (fun m2 => sumC (projections J) (fun M => A m1 m2 M * Cconj (A' m1 m2 M)))) %C = if (Z.eqb L L' && Z.eqb S S')%bool then RtoC 1 else RtoC 0.
Proof. exact waves. Qed.
Print Assumptions C89_waves.
Example C89_waves_example : wave 1 0 1 2 1 /\ wave 1 4 3 2 1 /\ forall j m, 0 <= j <= 2 -> projection j m -> definite (Stable false j (fun m' => if m' =? m then RtoC 1 else RtoC 0)) j m.
Proof.
  split; [unfold wave, couples; repeat split; lia|]. split; [unfold wave, couples; repeat split; lia|]. intros j m Hj [Hm _]. split; [reflexivity|]. split; [reflexivity|]. intros M HM. cbn.
  destruct (Z.eqb_spec j 0); [replace m with 0 by lia; reflexivity|]. destruct (Z.eqb_spec j 1), (Z.eqb_spec j 2); try reflexivity. lia.
Qed.

(** When the spins do not have to add up to a value given by the user, they add up to the least value that couples with L. *)
Theorem C89_least_spin : forall J L S P d1 d2 M, wave J L S (spin d1) (spin d2) -> (forall S', wave J L S' (spin d1) (spin d2) -> S <= S') ->
  helicityAmplitude (Decay J L 0 P d1 d2) M = helicityAmplitude (Decay J L S P d1 d2) M.
Proof.
  intros J L S P d1 d2 M W Least. cbn [helicityAmplitude]. rewrite (wave_chosen _ _ _ _ _ W). destruct (wave_ok _ _ _ _ _ W) as ((HJ & _ & H1 & H2) & He).
  pose proof (chosen_least J L _ _ HJ H1 H2 He) as Q. destruct (chosen_S J L 0 (spin d1) (spin d2)) as [s|]; [|now destruct (Q S)]. destruct Q as [W' Q].
  replace s with S; [reflexivity|]. specialize (Q _ W). specialize (Least _ W'). lia.
Qed.
Print Assumptions C89_least_spin.
Example C89_least_spin_example : wave 4 4 2 2 2 /\ wave 4 4 4 2 2 /\ ~ wave 4 4 1 2 2 /\ wave 4 4 0 2 2 /\ wave 2 4 2 2 2 /\ ~ wave 2 4 0 2 2.
Proof. unfold wave, couples. repeat split; try lia; intros (_ & _ & [A B] & C & D); try discriminate; lia. Qed.

(** An L that cannot be reached is not refused: there is a message, and the amplitude is not a number. *)
Theorem C89_impossible_refuted : exists J L P d1 d2, 0 <= J /\ Z.even L = true /\ 0 <= L /\ pt2 P <> 0%R /\ sound d1 /\ sound d2 /\ Z.even (J + spin d1 + spin d2) = true /\
  (forall S, ~ wave J L S (spin d1) (spin d2)) /\ forall M, helicityAmplitude (Decay J L 0 P d1 d2) M = None.
Proof.
  exists 0, 4, (1, 2, 3)%R, rho, pion. assert (N : forall S, ~ wave 0 4 S 2 0) by (intros S (_ & _ & [A _] & B & _); lia).
  split; [lia|]. split; [reflexivity|]. split; [lia|]. split; [cbn; lra|]. split; [exact sound_rho|]. split; [cbn; lia|]. split; [reflexivity|]. split; [exact N|].
  intro M. cbn [helicityAmplitude spin rho pion]. pose proof (chosen_least 0 4 2 0 ltac:(lia) ltac:(lia) ltac:(lia) eq_refl) as Q. destruct (chosen_S 0 4 0 2 0) as [s|]; [|reflexivity].
  destruct Q as [W _]. now destruct (N s).
Qed.
Print Assumptions C89_impossible_refuted.

(** A decay along the axis has no azimuth; the amplitude is then not a number even where every rotation function is defined. *)
Theorem C89_axis_refuted : exists J L P d1 d2, wave J L 0 (spin d1) (spin d2) /\ sound d1 /\ sound d2 /\ P <> (0, 0, 0)%R /\ forall M, helicityAmplitude (Decay J L 0 P d1 d2) M = None.
Proof.
  exists 2, 2, (0, 0, 1)%R, pion, pion. split; [exact wave_rho|]. split; [cbn; lia|]. split; [cbn; lia|]. split; [intro E; injection E as E; lra|].
  intro M. cbn [helicityAmplitude angCoordinates]. destruct (Req_EM_T (pt2 (0, 0, 1)%R) 0) as [_|N]; [|cbn in N; exfalso; lra].
  destruct (chosen_S _ _ _ _ _); [|reflexivity]. now destruct (recoupling _ _ _ _ _).
Qed.
Print Assumptions C89_axis_refuted.

(** A stable particle with a spin above one: its first daughter is taken. *)
Theorem C89_higher_spin_refuted : exists d, 0 <= spin d /\ (forall M, helicityAmplitude d M = None) /\ exists g o, d = Stable g 3 o.
Proof. exists (Stable false 3 (fun _ => RtoC 1)). split; [cbn; lia|]. split; [reflexivity|]. now eexists; eexists. Qed.
Print Assumptions C89_higher_spin_refuted.

(** Frames are kept under the indices of the particles; for indices of one digit only those of the same particle are shared. *)
Theorem C89_keys_partial : forall t t', one_digit t -> one_digit t' -> index_string t = index_string t' -> t = t'.
Proof. intros t t' H H' E. apply (key_prefix t t' [] [] H H'). now rewrite E. Qed.
Print Assumptions C89_keys_partial.
Example C89_keys_example : one_digit (Node [Node [Leaf 0; Leaf 3]; Leaf 9]) /\ index_string (Node [Node [Leaf 0; Leaf 3]; Leaf 9]) = S_ "{{03}9}".
Proof. split; [cbn; lia|reflexivity]. Qed.
(** With ten or more particles two different pairs have one key, and so one frame. *)
Theorem C89_keys_refuted : exists t t', t <> t' /\ index_string t = index_string t'.
Proof. exists (Node [Leaf 1; Leaf 10]), (Node [Leaf 11; Leaf 0]). split; [discriminate|reflexivity]. Qed.
Print Assumptions C89_keys_refuted.
