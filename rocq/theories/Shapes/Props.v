From Verif.Common Require Import Prelude.
From Coq Require Import Reals Lra Lia.
From Coquelicot Require Import Hierarchy Complex.
From Verif.Lineshapes Require Import Model.
From Verif.Shapes Require Import Model Spec Proofs.
Local Open Scope R_scope.

(** The polynomial shape is the polynomial of the degree asked for, all of whose coefficients are parameters. *)
Theorem C106_poly : forall s n c, Poly s n c = polynomial n c s.
Proof. intros s n c. unfold Poly, pol. rewrite Nat.add_1_r, pol_loop_ok. unfold polynomial. cbn [Nat.add]. ring. Qed.
Print Assumptions C106_poly.
Example C106_poly_ex : Poly 2 3 (fun i => INR i) = 34.
Proof. rewrite C106_poly. unfold polynomial. cbn. ring. Qed.

(** The shape in two variables is the polynomial of this degree in each of them. What is missing: the root that the documentation has. *)
Theorem C106_polyNR_partial : forall s t n c, PolyNR s t n c = polynomial2 n c s t.
Proof.
  intros s t n c. unfold PolyNR, polynomial2. rewrite Nat.add_1_r.
  rewrite (fold_ext _ (fun rt i => rt + sum_f_R0 (fun j => c i j * s ^ i * t ^ j) n)) by (intros; apply (fold_sum (fun j => c b j * s ^ b * t ^ j))).
  rewrite fold_sum. cbn [Nat.add]. ring.
Qed.
Print Assumptions C106_polyNR_partial.
(** The documentation gives the root of the polynomial, the shape is the polynomial (AmpGen/Lineshapes.h:327-329, src/Lineshapes/PolyNR.cpp:30-39). *)
Theorem C106_polyNR_refuted : exists s t n c, 0 < polynomial2 n c s t /\ PolyNR s t n c <> sqrt (polynomial2 n c s t).
Proof.
  exists 1, 1, 1%nat, (fun _ _ => 1). rewrite C106_polyNR_partial. unfold polynomial2. cbn. split; [lra|]. intro E.
  assert (A := sqrt_sqrt (1 * 1 * 1 + 1 * (1) * (1 * 1) + (1 * (1 * 1) * 1 + 1 * (1 * 1) * (1 * 1)))). rewrite <- E in A. lra.
Qed.
Print Assumptions C106_polyNR_refuted.

(** The Gaussian is between 0 and 1, is 1 at its mean only, and falls with the distance from it. *)
Theorem C106_gaussian : forall mu sigma, sigma <> 0 ->
  (forall s, 0 < Gaussian s mu sigma <= 1) /\ (forall s, Gaussian s mu sigma = 1 <-> s = mu) /\
  (forall s t, Rabs (s - mu) < Rabs (t - mu) -> Gaussian t mu sigma < Gaussian s mu sigma).
Proof.
  intros mu sg Hs. assert (P : 0 < 2 * sg * sg) by nra. assert (I : 0 < / (2 * sg * sg)) by (apply Rinv_0_lt_compat; exact P). unfold Gaussian, Rdiv. split; [|split].
  - intro s. split; [apply exp_pos|]. rewrite <- exp_0. assert (- (s - mu) * (s - mu) * / (2 * sg * sg) <= 0) by (assert (Q : - (s - mu) * (s - mu) <= 0) by (pose proof (Rle_0_sqr (s - mu)) as Q; unfold Rsqr in Q; lra); pose proof (Rmult_le_compat_r _ _ _ (Rlt_le _ _ I) Q); lra). destruct (Req_dec (- (s - mu) * (s - mu) * / (2 * sg * sg)) 0) as [E|E]; [rewrite E; lra|]. left. apply exp_increasing. lra.
  - intro s. split.
    + intro E. rewrite <- exp_0 in E. apply exp_inv in E. apply Rmult_integral in E. destruct E as [E|E]; [|lra]. apply Rmult_integral in E. destruct E; lra.
    + intros ->. rewrite Rminus_diag_eq by reflexivity. rewrite <- exp_0. f_equal. ring.
  - intros s t L. apply exp_increasing. assert ((s - mu) * (s - mu) < (t - mu) * (t - mu)).
    2: { pose proof (Rmult_lt_compat_r _ _ _ I H). lra. }
    exact (Rsqr_lt_abs_1 _ _ L).
Qed.
Print Assumptions C106_gaussian.
Example C106_gaussian_ex : Gaussian 3 1 2 < Gaussian 2 1 2.
Proof. apply (C106_gaussian 1 2); [lra|]. rewrite !Rabs_pos_eq; lra. Qed.

(** Of a particle of the mass in the tables, into particles light enough, the shape for the eta is the root of the distribution that is documented, in terms of the kinetic energies in
    the rest frame. *)
Theorem C106_eta_partial : forall pp pm p0 M mp mm m0, on_shell pp mp -> on_shell pm mm -> on_shell p0 m0 -> 0 < M -> mp + mm + m0 < M -> light M mp mm m0 ->
  (let P := plus (plus pp pm) p0 in dot P P = M * M) ->
  0 < eta_z pp pm p0 mp mm m0 /\ EtaDalitz pp pm p0 M mp mm m0 = sqrt (eta_z pp pm p0 mp mm m0).
Proof.
  intros pp pm p0 M mp mm m0 Hp Hm H0 HM HQ HL E. cbv zeta in E. pose proof (third_bound _ _ _ _ _ _ _ Hp Hm H0 HM E) as B.
  assert (SM : dot pp (plus (plus pp pm) p0) + dot pm (plus (plus pp pm) p0) + dot p0 (plus (plus pp pm) p0) = M * M) by (rewrite <- E; unfold dot, plus; cbn; ring).
  unfold eta_z, EtaDalitz, kinetic. cbv zeta. rewrite E. rewrite sqrt_square by lra.
  set (A := dot pp (plus (plus pp pm) p0)) in *. set (A' := dot pm (plus (plus pp pm) p0)) in *. set (A0 := dot p0 (plus (plus pp pm) p0)) in *.
  assert (QE : A / M - mp + (A' / M - mm) + (A0 / M - m0) = M - mp - mm - m0).
  { replace (A / M - mp + (A' / M - mm) + (A0 / M - m0)) with ((A + A' + A0) / M - mp - mm - m0) by (field; lra). rewrite SM. field. lra. }
  rewrite QE. replace (3 * (A0 - M * m0) / (A - M * mp + (A' - M * mm) + (A0 - M * m0))) with (3 * (A0 / M - m0) / (M - mp - mm - m0)).
  2: { replace (A - M * mp + (A' - M * mm) + (A0 - M * m0)) with (M * (M - mp - mm - m0)) by lra. field. split; lra. }
  assert (Z : 0 < 1 - 107 / 100 * (3 * (A0 / M - m0) / (M - mp - mm - m0) - 1)).
  { replace (1 - 107 / 100 * (3 * (A0 / M - m0) / (M - mp - mm - m0) - 1)) with ((207 * M * (M - mp - mm - m0) - 321 * (A0 - M * m0)) / (100 * M * (M - mp - mm - m0))) by (field; split; lra).
    apply Rdiv_lt_0_compat; [unfold light in HL; nra|]. repeat apply Rmult_lt_0_compat; lra. }
  split; [exact Z|]. destruct (Rlt_dec 0 _) as [|N]; [reflexivity|contradiction].
Qed.
Print Assumptions C106_eta_partial.
(** The masses of the eta and the pions. *)
Example C106_eta_ex : light (547862 / 1000000) (139570 / 1000000) (139570 / 1000000) (134977 / 1000000) /\
  EtaDalitz (P4 (sqrt 3) 0 0 2) (P4 (- sqrt 3) 0 0 2) (P4 0 0 0 8) 12 1 1 8 = sqrt (eta_z (P4 (sqrt 3) 0 0 2) (P4 (- sqrt 3) 0 0 2) (P4 0 0 0 8) 1 1 8).
Proof.
  split; [unfold light; lra|]. assert (S3 : sqrt 3 * sqrt 3 = 3) by (apply sqrt_sqrt; lra). assert (S4 : sqrt 4 = 2) by (replace 4 with (2 * 2) by ring; apply sqrt_square; lra).
  assert (S64 : sqrt 64 = 8) by (replace 64 with (8 * 8) by ring; apply sqrt_square; lra).
  apply C106_eta_partial; try lra.
  - split; [lra|]. cbn [pe px py pz]. rewrite S3. replace (1 * 1 + 3 + 0 * 0 + 0 * 0) with 4 by ring. lra.
  - split; [lra|]. cbn [pe px py pz]. replace (1 * 1 + - sqrt 3 * - sqrt 3 + 0 * 0 + 0 * 0) with (1 + sqrt 3 * sqrt 3) by ring. rewrite S3. replace (1 + 3) with 4 by ring. lra.
  - split; [lra|]. cbn [pe px py pz]. replace (8 * 8 + 0 * 0 + 0 * 0 + 0 * 0) with 64 by ring. lra.
  - unfold light. lra.
  - unfold dot, plus. cbn. ring_simplify. lra.
Qed.

(** When the mass of the three particles is not that of the tables, what is used is not the kinetic energies, and the shape is another one (src/Lineshapes/EtaDalitz.cpp:20-22). *)
Theorem C106_eta_mass_refuted : exists pp pm p0 M mp mm m0, on_shell pp mp /\ on_shell pm mm /\ on_shell p0 m0 /\ mp + mm + m0 < M /\ 0 < eta_z pp pm p0 mp mm m0 /\
  EtaDalitz pp pm p0 M mp mm m0 <> sqrt (eta_z pp pm p0 mp mm m0).
Proof.
  assert (S3 : sqrt 3 * sqrt 3 = 3) by (apply sqrt_sqrt; lra). assert (S4 : sqrt 4 = 2) by (replace 4 with (2 * 2) by ring; apply sqrt_square; lra).
  exists (P4 (sqrt 3) 0 0 2), (P4 (- sqrt 3) 0 0 2), (P4 0 0 0 1), 4, 1, 1, 1.
  assert (Z : eta_z (P4 (sqrt 3) 0 0 2) (P4 (- sqrt 3) 0 0 2) (P4 0 0 0 1) 1 1 1 = 207 / 100).
  { unfold eta_z, kinetic, dot, plus. cbn [px py pz pe].
    replace ((2 + 2 + 1) * (2 + 2 + 1) - (sqrt 3 + - sqrt 3 + 0) * (sqrt 3 + - sqrt 3 + 0) - (0 + 0 + 0) * (0 + 0 + 0) - (0 + 0 + 0) * (0 + 0 + 0)) with (5 * 5) by ring.
    rewrite sqrt_square by lra. field. lra. }
  split; [split; [lra|]; cbn [pe px py pz]; rewrite S3; replace (1 * 1 + 3 + 0 * 0 + 0 * 0) with 4 by ring; lra|].
  split; [split; [lra|]; cbn [pe px py pz]; replace (1 * 1 + - sqrt 3 * - sqrt 3 + 0 * 0 + 0 * 0) with (1 + sqrt 3 * sqrt 3) by ring; rewrite S3; replace (1 + 3) with 4 by ring; lra|].
  split; [split; [lra|]; cbn [pe px py pz]; replace (1 * 1 + 0 * 0 + 0 * 0 + 0 * 0) with 1 by ring; rewrite sqrt_1; lra|].
  split; [lra|]. rewrite Z. split; [lra|]. unfold EtaDalitz. cbv zeta.
  assert (Y : 1 - 107 / 100 * (3 * (dot (P4 0 0 0 1) (plus (plus (P4 (sqrt 3) 0 0 2) (P4 (- sqrt 3) 0 0 2)) (P4 0 0 0 1)) - 4 * 1) /
     (dot (P4 (sqrt 3) 0 0 2) (plus (plus (P4 (sqrt 3) 0 0 2) (P4 (- sqrt 3) 0 0 2)) (P4 0 0 0 1)) - 4 * 1 +
      (dot (P4 (- sqrt 3) 0 0 2) (plus (plus (P4 (sqrt 3) 0 0 2) (P4 (- sqrt 3) 0 0 2)) (P4 0 0 0 1)) - 4 * 1) +
      (dot (P4 0 0 0 1) (plus (plus (P4 (sqrt 3) 0 0 2) (P4 (- sqrt 3) 0 0 2)) (P4 0 0 0 1)) - 4 * 1)) - 1) = 1 + 1070 / 1300).
  { unfold dot, plus. cbn [px py pz pe].
    replace (1 * (2 + 2 + 1) - 0 * (sqrt 3 + - sqrt 3 + 0) - 0 * (0 + 0 + 0) - 0 * (0 + 0 + 0) - 4 * 1) with 1 by ring.
    replace (2 * (2 + 2 + 1) - sqrt 3 * (sqrt 3 + - sqrt 3 + 0) - 0 * (0 + 0 + 0) - 0 * (0 + 0 + 0) - 4 * 1) with 6 by ring.
    replace (2 * (2 + 2 + 1) - - sqrt 3 * (sqrt 3 + - sqrt 3 + 0) - 0 * (0 + 0 + 0) - 0 * (0 + 0 + 0) - 4 * 1) with 6 by ring. field. }
  rewrite Y. destruct (Rlt_dec 0 (1 + 1070 / 1300)) as [_|N]; [|lra]. intro C. apply sqrt_inj in C; lra.
Qed.
Print Assumptions C106_eta_mass_refuted.

(** Where the distribution that is documented is negative the shape is 1, as at its middle (src/Lineshapes/EtaDalitz.cpp:27); this happens for other masses than those of the eta. *)
Theorem C106_eta_negative_refuted : exists pp pm p0 M mp mm m0, on_shell pp mp /\ on_shell pm mm /\ on_shell p0 m0 /\ 0 < M /\ mp + mm + m0 < M /\
  (let P := plus (plus pp pm) p0 in dot P P = M * M) /\ eta_z pp pm p0 mp mm m0 < 0 /\ EtaDalitz pp pm p0 M mp mm m0 = 1.
Proof.
  exists (P4 (-5) 0 0 13), (P4 (-5) 0 0 13), (P4 10 0 0 (25 / 2)), (77 / 2), 12, 12, (15 / 2).
  assert (S1 : sqrt 169 = 13) by (replace 169 with (13 * 13) by ring; apply sqrt_square; lra). assert (S2 : sqrt (625 / 4) = 25 / 2) by (replace (625 / 4) with (25 / 2 * (25 / 2)) by field; apply sqrt_square; lra).
  split; [split; [lra|]; cbn [pe px py pz]; replace (12 * 12 + -5 * -5 + 0 * 0 + 0 * 0) with 169 by ring; lra|].
  split; [split; [lra|]; cbn [pe px py pz]; replace (12 * 12 + -5 * -5 + 0 * 0 + 0 * 0) with 169 by ring; lra|].
  split; [split; [lra|]; cbn [pe px py pz]; replace (15 / 2 * (15 / 2) + 10 * 10 + 0 * 0 + 0 * 0) with (625 / 4) by field; lra|].
  split; [lra|]. split; [lra|]. split; [cbv zeta; unfold dot, plus; cbn; field|]. split.
  - unfold eta_z, kinetic, dot, plus. cbn [px py pz pe].
    replace ((13 + 13 + 25 / 2) * (13 + 13 + 25 / 2) - (-5 + -5 + 10) * (-5 + -5 + 10) - (0 + 0 + 0) * (0 + 0 + 0) - (0 + 0 + 0) * (0 + 0 + 0)) with (77 / 2 * (77 / 2)) by field.
    rewrite sqrt_square by lra. match goal with |- ?x < 0 => replace x with (1 - 107 / 100 * (15 / 7 - 1)) by field end. lra.
  - unfold EtaDalitz, dot, plus. cbn [px py pz pe]. destruct (Rlt_dec 0 _) as [L|_]; [|reflexivity]. exfalso. revert L.
    match goal with |- 0 < ?x -> _ => replace x with (1 - 107 / 100 * (15 / 7 - 1)) by field end. lra.
Qed.
Print Assumptions C106_eta_negative_refuted.

(** The scattering amplitude of the shape of Bugg respects unitarity, exactly below the production of four pions. *)
Theorem C106_bugg_unitarity : forall b s, physical b s ->
  Cmod (scattering b s) * Cmod (scattering b s) <= Im (scattering b s) /\
  (s <= 16 * mPiPlus * mPiPlus -> Cmod (scattering b s) * Cmod (scattering b s) = Im (scattering b s)) /\ scattering b s <> RtoC 0.
Proof.
  intros b s H. destruct (denominator b s H) as (X & g & G & Eg & Ei & Pg & PG & Z). set (D := X * X + (g + G) * (g + G)).
  assert (PD : 0 < D) by (unfold D; nra).
  assert (ET : scattering b s = (g * X / D, g * (g + G) / D)).
  { unfold scattering, BW. rewrite Eg, Ei. apply injective_projections; cbn; unfold D in *; field; nra. }
  rewrite ET. assert (EM : Cmod (g * X / D, g * (g + G) / D) * Cmod (g * X / D, g * (g + G) / D) = g * g / D).
  { unfold Cmod. rewrite sqrt_sqrt by (cbn; nra). cbn [fst snd]. unfold D. field. unfold D in PD. lra. }
  rewrite EM. cbn [Im snd]. split; [|split].
  - unfold Rdiv. apply Rmult_le_compat_r; [left; apply Rinv_0_lt_compat; exact PD|nra].
  - intro L. rewrite (Z L). unfold D. f_equal. ring.
  - intro C. apply (f_equal snd) in C. cbn in C. assert (0 < g * (g + G) / D) by (apply Rdiv_lt_0_compat; [nra|exact PD]). lra.
Qed.
Print Assumptions C106_bugg_unitarity.

(** At its mass the amplitude is purely from the width. *)
Theorem C106_bugg_pole : forall b, Gamma_tot b (bM b * bM b) <> RtoC 0 -> (BW b (bM b * bM b) * Gamma_tot b (bM b * bM b))%C = Ci.
Proof.
  intros b N. unfold BW, iBW, zfun. set (Z := Buggj1 (bM b * bM b) mPiPlus). replace (Z - Z) with 0 by ring. rewrite Rmult_0_r.
  replace (bM b * bM b - bM b * bM b - 0) with 0 by ring. assert (NC : Ci <> RtoC 0) by (intro C; apply (f_equal snd) in C; cbn in C; lra).
  assert (CC : (Ci * Ci)%C = RtoC (-1)) by (apply injective_projections; cbn; ring).
  assert (N1 : (RtoC 0 - Ci * Gamma_tot b (bM b * bM b))%C <> RtoC 0).
  { intro C. apply (Cmult_neq_0 _ _ NC N). replace (Ci * Gamma_tot b (bM b * bM b))%C with (- (RtoC 0 - Ci * Gamma_tot b (bM b * bM b)))%C by ring. rewrite C. apply injective_projections; cbn; ring. }
  set (W := Gamma_tot b (bM b * bM b)) in *. assert (EW : W = (Ci * (RtoC 0 - Ci * W))%C).
  { transitivity (- (Ci * Ci) * W)%C; [rewrite CC; apply injective_projections; cbn; ring|ring]. }
  rewrite EW at 2. field. intro C. apply N1. etransitivity; [|exact C]. ring.
Qed.
Print Assumptions C106_bugg_pole.
(** Below the threshold of two pions the dispersive term is that of no phase space, and its root is never of a negative number. *)
Theorem C106_bugg_threshold : forall s m, 0 < s -> 0 < m -> 0 <= rho s (m * m) < 1 /\ (rho s (m * m) = 0 <-> s <= 4 * (m * m)) /\ (s <= 4 * (m * m) -> Buggj1 s m = 2 / PI).
Proof.
  intros s m S M. assert (Q : 0 < 4 * (m * m) / s) by (apply Rdiv_lt_0_compat; nra).
  assert (E : s <= 4 * (m * m) <-> 1 <= 4 * (m * m) / s).
  { split; intro H. - apply (Rmult_le_reg_r s); [exact S|]. unfold Rdiv. rewrite Rmult_assoc, Rinv_l by lra. lra.
    - apply (Rmult_le_compat_r s) in H; [|lra]. unfold Rdiv in H. rewrite Rmult_assoc, Rinv_l in H by lra. lra. }
  assert (Z : s <= 4 * (m * m) -> rho s (m * m) = 0). { intro H. unfold rho. destruct (Rlt_dec 0 _) as [L|_]; [|reflexivity]. apply E in H. lra. }
  split; [|split; [split; [|exact Z]|]].
  - unfold rho. destruct (Rlt_dec 0 _); lra.
  - intro H. apply E. revert H. unfold rho. destruct (Rlt_dec 0 _); lra.
  - intro H. unfold Buggj1. rewrite (Z H), sqrt_0. destruct (Rlt_dec 0 0); [lra|]. f_equal. ring.
Qed.
Print Assumptions C106_bugg_threshold.
(** The width to four pions opens at their threshold, grows from there, and is the coupling at the mass. *)
Theorem C106_bugg_four_pions : forall b, 0 < bM b -> 0 < g_4pi b -> 0 < lambda_4pi b ->
  (forall s, s <= 16 * mPiPlus * mPiPlus -> gamma_4pi b s = 0) /\
  (forall s t, 16 * mPiPlus * mPiPlus < s -> s < t -> 0 < gamma_4pi b s < gamma_4pi b t) /\
  (16 * mPiPlus * mPiPlus < bM b * bM b -> gamma_4pi b (bM b * bM b) = bM b * g_4pi b).
Proof.
  intros b M G L. assert (P : forall s, 0 < rho_4pi s (lambda_4pi b) (s0_4pi b)).
  { intro s. unfold rho_4pi. apply Rdiv_lt_0_compat; [lra|]. pose proof (exp_pos (lambda_4pi b * (s0_4pi b - s))). lra. }
  split; [|split].
  - intros s H. unfold gamma_4pi, Gamma_4pi. destruct (Rlt_dec _ s); [lra|ring].
  - intros s t S T. unfold gamma_4pi, Gamma_4pi. destruct (Rlt_dec _ s) as [_|N]; [|lra]. destruct (Rlt_dec _ t) as [_|N]; [|lra].
    assert (I : rho_4pi s (lambda_4pi b) (s0_4pi b) < rho_4pi t (lambda_4pi b) (s0_4pi b)).
    { unfold rho_4pi, Rdiv. rewrite !Rmult_1_l. pose proof (exp_pos (lambda_4pi b * (s0_4pi b - s))). pose proof (exp_pos (lambda_4pi b * (s0_4pi b - t))).
      apply Rinv_lt_contravar; [nra|]. apply Rplus_lt_compat_l, exp_increasing. nra. }
    pose proof (P s) as Ps. pose proof (Rinv_0_lt_compat _ (P (bM b * bM b))) as Pm. unfold Rdiv. set (x := / rho_4pi (bM b * bM b) (lambda_4pi b) (s0_4pi b)) in *.
    set (u := rho_4pi s _ _) in *. set (v := rho_4pi t _ _) in *. clearbody x u v. assert (0 < bM b * (g_4pi b * x)) by (apply Rmult_lt_0_compat; [|apply Rmult_lt_0_compat]; assumption).
    set (k := bM b * (g_4pi b * x)) in *. replace (bM b * (g_4pi b * u * x)) with (k * u) by (unfold k; ring). replace (bM b * (g_4pi b * v * x)) with (k * v) by (unfold k; ring).
    split; [apply Rmult_lt_0_compat; assumption|apply Rmult_lt_compat_l; assumption].
  - intro H. unfold gamma_4pi, Gamma_4pi. destruct (Rlt_dec _ _) as [_|N]; [|lra]. pose proof (P (bM b * bM b)). field. lra.
Qed.
Print Assumptions C106_bugg_four_pions.
Example C106_bugg_four_pions_ex : 16 * mPiPlus * mPiPlus < 935 / 1000 * (935 / 1000).
Proof. unfold mPiPlus. lra. Qed.
(** The default parameters. *)
Definition defaults : bugg := Bugg (935 / 1000) (1302 / 1000) (340 / 1000) (2426 / 1000) (11 / 1000) (6 / 10) (2 / 10) (13 / 10) (41 / 100) (7082 / 2845) (2845 / 1000).
Example C106_bugg_ex : physical defaults (1 / 4) /\ 1 / 4 <= 16 * mPiPlus * mPiPlus /\ physical defaults 1.
Proof. unfold physical, defaults, sA, mPiPlus. cbn. repeat split; lra. Qed.
Example C106_bugg_pole_ex : Gamma_tot defaults (bM defaults * bM defaults) <> RtoC 0.
Proof.
  assert (H : physical defaults (bM defaults * bM defaults)) by (unfold physical, defaults, sA, mPiPlus; cbn; repeat split; lra).
  destruct (pions _ _ H) as (g & Eg & Pg). pose proof H as (_ & _ & _ & HK & He & _).
  destruct (channel _ _ H (g_2K defaults) mKPlus HK) as (XK & GK & EK & PK & _). destruct (channel _ _ H (g_2eta defaults) mEta He) as (Xe & Ge & Ee & Pe & _). destruct (four_pions _ _ H) as [P4 _].
  unfold Gamma_tot, gamma_2K, gamma_2eta. rewrite Eg, EK, Ee. set (G4 := gamma_4pi defaults (bM defaults * bM defaults)) in *. clearbody G4. clear EK Ee Eg. intro C. apply (f_equal fst) in C. cbn in C. lra.
Qed.
