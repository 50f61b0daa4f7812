(** C84: states of polarisation and density matrices. *)
From Verif.Common Require Import Prelude.
From Coq Require Import Reals Lra Lia.
From Coquelicot Require Import Hierarchy Complex.
From Verif.Polarised Require Import Model Spec Proofs DensityProofs.
Local Open Scope C_scope.

(** The combinations are all of them, in the order of a counter: state number m * (number of states of the rest) + f has entry m
    of the first list and is state f of the rest. *)
Theorem C84_combinations {A} (e : list A) (r : list (list A)) :
  all_combinations (e :: r) = map Ok (lex (e :: r)) /\
  (forall m f x, nth_error e m = Some x -> (f < List.length (all_combinations r))%nat ->
     exists l, nth_error (all_combinations r) f = Some (Ok l) /\ nth_error (all_combinations (e :: r)) (m * List.length (all_combinations r) + f) = Some (Ok (x :: l))).
Proof.
  split; [apply combinations_lex|]. intros m f x Hx Hf. rewrite !combinations_lex in *. rewrite map_length, lex_length in *.
  pose proof (lex_nth e r m f x Hx Hf) as E. exists (nth f (lex r) []).
  assert (Hm : (m < List.length e)%nat) by (apply nth_error_Some; congruence).
  split; rewrite nth_error_map.
  - rewrite (nth_error_nth' (lex r) []) by (rewrite lex_length; exact Hf). reflexivity.
  - rewrite (nth_error_nth' (lex (e :: r)) []) by (rewrite lex_length, number_cons; nia). cbn [option_map]. now rewrite E.
Qed.
Print Assumptions C84_combinations.

(** The number of states is the product of the dimensions, for photons and for spins 0, 1/2, 1 and 2. *)
Definition known (p : nat * bool) : Prop := (fst p = 2%nat /\ snd p = true) \/ (snd p = false /\ (fst p = 0 \/ fst p = 1 \/ fst p = 2 \/ fst p = 4)%nat).
Theorem C84_dim_partial (mother : nat * bool) (products : list (nat * bool)) : known mother -> Forall known products ->
  List.length (polStates mother products) = (fst (dim mother products) * snd (dim mother products))%nat /\
  List.length (polarisations (fst mother) (snd mother)) = fst (dim mother products).
Proof.
  intros Hm Hp. assert (K : forall p, known p -> List.length (polarisations (fst p) (snd p)) = dimOfParticle (fst p) (snd p)).
  { intros [t b] [[H1 H2]|[H1 [H2|[H2|[H2|H2]]]]]; cbn [fst snd] in *; subst; reflexivity. }
  split; [|now apply K]. unfold polStates. rewrite combinations_lex, map_length, lex_length. cbn [map]. rewrite number_cons, K by exact Hm. unfold dim. cbn [fst snd]. f_equal.
  assert (G : forall k, fold_left (fun nc (s : list Z) => (nc * List.length s)%nat) (map (fun p => polarisations (fst p) (snd p)) products) k = fold_left (fun d p => (d * dimOfParticle (fst p) (snd p))%nat) products k).
  { induction Hp as [|p l Hk _ IH]; intro k; [reflexivity|]. cbn. now rewrite K, IH by exact Hk. }
  apply G.
Qed.
Print Assumptions C84_dim_partial.

(** A particle of spin 3/2 (an Omega baryon, say) has dimension 4 but one state of polarisation: the amplitudes have one field
    each and four are read from the cache. *)
Theorem C84_dim_refuted : exists mother products, List.length (polStates mother products) <> (fst (dim mother products) * snd (dim mother products))%nat.
Proof. exists (3%nat, false), ((1%nat, false) :: (0%nat, false) :: nil). vm_compute. discriminate. Qed.
Print Assumptions C84_dim_refuted.

(** Both forms of the matrix exist for the same parameters, are transposed to each other, hermitian, and have as their trace
    the number of states: a density does not depend on the polarisation when it is summed over the states. *)
Theorem C84_hermitian (d : nat) (p : list R) m_rho : densityMatrix d p = Ok m_rho -> exists m, rho d p = Ok m /\
  (forall a b, (a < d)%nat -> (b < d)%nat -> m_rho (a * d + b)%nat = m b a /\ Cconj (m a b) = m b a) /\ csum d (fun a => m a a) = RtoC (INR d).
Proof.
  intro H. destruct (rho_transposed d p m_rho H) as (m & Hr & Hm). exists m. split; [exact Hr|]. split; [exact Hm|].
  destruct (Nat.eq_dec d 2) as [->|N2]; [|destruct (Nat.eq_dec d 3) as [->|N3]].
  - cbn [rho] in Hr. destruct p as [|px [|py [|pz p]]]; try discriminate. injection Hr as <-. cbn. apply injective_projections; cbn; ring.
  - cbn [rho] in Hr. destruct p as [|px [|py [|pz [|Tyy [|Tzz [|Txy [|Txz [|Tyz p]]]]]]]]; try discriminate. injection Hr as <-.
    assert (S6 : sqrt 6 = (2 * sqrt 1.5)%R). { replace 6%R with (2 * 2 * 1.5)%R by lra. rewrite sqrt_mult_alt by lra. now rewrite sqrt_square by lra. }
    cbn. apply injective_projections; cbn; rewrite ?S6; ring.
  - assert (Er : rho d p = Ok delta) by (destruct d as [|[|[|[|d]]]]; [reflexivity|reflexivity|congruence|congruence|reflexivity]). rewrite Er in Hr. injection Hr as <-.
    clear. induction d as [|d IH]; [reflexivity|]. cbn [csum]. rewrite IH, S_INR, RtoC_plus. unfold delta. now rewrite Nat.eqb_refl.
Qed.
Print Assumptions C84_hermitian.

(** Spin 1/2: the density is never negative if and only if the polarisation is at most 1, and for a pure state it is twice the
    probability to find the decaying particle in that state, whatever the direction. *)
Theorem C84_half (px py pz : R) (s2 : nat) : (0 < s2)%nat ->
  ((forall T, exists P, probExpression 2 s2 (px :: py :: pz :: nil) [] T = Ok P /\ (0 <= P)%R) <-> (px * px + py * py + pz * pz <= 1)%R) /\
  (forall v T, normalised 2 v -> px = expect 2 (Sigma 0) v -> py = expect 2 (Sigma 1) v -> pz = expect 2 (Sigma 2) v ->
     probExpression 2 s2 (px :: py :: pz :: nil) [] T = Ok (2 * overlap 2 s2 v T)%R).
Proof.
  intro Hs. split; [split|].
  - intro H. destruct (Rle_or_lt (px * px + py * py + pz * pz) 1) as [L|G]; [exact L|exfalso].
    assert (Z : forall g, (forall f, f <> 0%nat -> g f = 0%R) -> sumR s2 g = g 0%nat).
    { intros g Hg. clear H. induction s2 as [|k IH]; [lia|]. cbn. destruct k as [|k]; [cbn; ring|]. rewrite IH by lia. rewrite (Hg (S k)) by lia. ring. }
    destruct (Rlt_or_le 0 (1 + pz)) as [A|A].
    + destruct (H (fun a f => match f with 0%nat => match a with 0%nat => (- px, py)%R | _ => RtoC (1 + pz) end | _ => RtoC 0 end)) as (P & HP & Pos).
      rewrite half_prob in HP. injection HP as <-. rewrite Z in Pos by (intros [|f] Hf; [congruence|unfold half_f; cbn; ring]). unfold half_f in Pos. cbn in Pos.
      match type of Pos with (_ <= ?e)%R => replace e with ((1 + pz) * (1 - (px * px + py * py + pz * pz)))%R in Pos by ring end.
      assert ((1 + pz) * (1 - (px * px + py * py + pz * pz)) < 0)%R; [|lra]. rewrite Rmult_comm. apply Ropp_lt_cancel; rewrite Ropp_0, Ropp_mult_distr_l; apply Rmult_lt_0_compat; lra.
    + destruct (H (fun a f => match f with 0%nat => match a with 0%nat => RtoC (1 - pz) | _ => (- px, - py)%R end | _ => RtoC 0 end)) as (P & HP & Pos).
      rewrite half_prob in HP. injection HP as <-. rewrite Z in Pos by (intros [|f] Hf; [congruence|unfold half_f; cbn; ring]). unfold half_f in Pos. cbn in Pos.
      match type of Pos with (_ <= ?e)%R => replace e with ((1 - pz) * (1 - (px * px + py * py + pz * pz)))%R in Pos by ring end.
      assert ((1 - pz) * (1 - (px * px + py * py + pz * pz)) < 0)%R; [|lra]. rewrite Rmult_comm. apply Ropp_lt_cancel; rewrite Ropp_0, Ropp_mult_distr_l; apply Rmult_lt_0_compat; lra.
  - intros L T. rewrite half_prob. eexists. split; [reflexivity|]. apply sumR_nonneg. intros f _. unfold half_f. apply half_term; [|exact L].
    destruct (Rlt_or_le 0 (1 + pz)); [now left|right; lra].
  - intros v T Hv -> -> ->. rewrite half_prob. f_equal. unfold overlap.
    assert (E : forall m g, (2 * sumR m g = sumR m (fun f => 2 * g f))%R) by (intros m g; induction m as [|m IHm]; cbn; [ring|rewrite <- IHm; ring]). rewrite E.
    apply sumR_ext. intros f _. rewrite cmod2. unfold normalised in Hv. cbn [sumR] in Hv. rewrite !cmod2 in Hv. unfold half_f, expect. cbn.
    destruct (v 0%nat) as [a b], (v 1%nat) as [c d], (T 0%nat f) as [x y], (T 1%nat f) as [z w]. cbn in *.
    apply Rminus_diag_uniq. transitivity ((1 - (0 + (a * a + b * b) + (c * c + d * d))) * (x * x + y * y + z * z + w * w))%R; [ring|rewrite Hv; ring].
Qed.
Print Assumptions C84_half.

(** Spin 1: the matrix is that of the polarisation vector and tensor if the vector is along z, and for a pure state it is then
    three times the probability to find the decaying particle in that state. Missing: the other directions. *)
Theorem C84_one_partial (pz Tyy Tzz Txy Txz Tyz : R) (s2 : nat) :
  (exists m, rho 3 (0 :: 0 :: pz :: Tyy :: Tzz :: Txy :: Txz :: Tyz :: nil)%R = Ok m /\ forall a b, (a < 3)%nat -> (b < 3)%nat -> m a b = spin1_density 0 0 pz Tyy Tzz Txy Txz Tyz a b) /\
  (forall v T, normalised 3 v -> expect 3 Sx v = 0%R -> expect 3 Sy v = 0%R -> pz = expect 3 Sz v ->
     Tyy = tensor true Sy Sy v -> Tzz = tensor true Sz Sz v -> Txy = tensor false Sx Sy v -> Txz = tensor false Sx Sz v -> Tyz = tensor false Sy Sz v ->
     probExpression 3 s2 (0 :: 0 :: pz :: Tyy :: Tzz :: Txy :: Txz :: Tyz :: nil)%R [] T = Ok (3 * overlap 3 s2 v T)%R).
Proof.
  assert (M : exists m, rho 3 (0 :: 0 :: pz :: Tyy :: Tzz :: Txy :: Txz :: Tyz :: nil)%R = Ok m /\
     forall a b, (a < 3)%nat -> (b < 3)%nat -> m a b = spin1_density 0 0 pz Tyy Tzz Txy Txz Tyz a b).
  { eexists. split; [reflexivity|]. intros a b Ha Hb. now apply spin1_along_z. }
  split; [exact M|]. destruct M as (m & Hr & Hm). intros v T Hv Ex Ey Ez Eyy Ezz Exy Exz Eyz. rewrite (prob_full _ _ _ m _ Hr). f_equal.
  apply (pure_overlap m v s2 T). intros a b Ha Hb. rewrite Hm by assumption. rewrite <- Ex at 1. rewrite <- Ey. subst. now apply spin1_pure.
Qed.
Print Assumptions C84_one_partial.

(** The factor of the transverse components of the polarisation is sqrt(3/8) where that of the longitudinal one, 3/2, requires
    3/sqrt(8) (src/PolarisedSum.cpp:154-156, 399-405): a particle that is fully polarised along x can be found with its spin in
    the opposite direction. *)
Theorem C84_one_refuted : exists px Tyy Tzz v T P, normalised 3 v /\ px = expect 3 Sx v /\ Tyy = tensor true Sy Sy v /\ Tzz = tensor true Sz Sz v /\
  (expect 3 Sy v = 0 /\ expect 3 Sz v = 0 /\ tensor false Sx Sy v = 0 /\ tensor false Sx Sz v = 0 /\ tensor false Sy Sz v = 0)%R /\
  probExpression 3 1 (px :: 0 :: 0 :: Tyy :: Tzz :: 0 :: 0 :: 0 :: nil)%R [] T = Ok P /\ overlap 3 1 v T = 0%R /\ (0 < P)%R.
Proof.
  set (h := (/ sqrt 2)%R). assert (Hh : (h * h = / 2)%R). { unfold h. rewrite <- Rinv_mult. now rewrite sqrt_sqrt by lra. }
  set (v := fun a => List.nth a [RtoC (/ 2); RtoC h; RtoC (/ 2)] (RtoC 0)). set (T := fun a (f : nat) => List.nth a [RtoC (/ 2); RtoC (- h); RtoC (/ 2)] (RtoC 0)).
  assert (S6 : (sqrt 6 * sqrt 6 = 6)%R) by (apply sqrt_sqrt; lra). assert (P6 : (0 < sqrt 6)%R) by (apply sqrt_lt_R0; lra).
  assert (Ep : expect 3 Sx v = 1%R). { unfold expect, Sx, mat, v. cbn. fold h. nra. }
  assert (Eyy : tensor true Sy Sy v = (- / 2 / sqrt 6)%R).
  { unfold tensor. f_equal. unfold expect, anti, mul3, Sy, mat, v. cbn. fold h. ring_simplify. replace (h ^ 4)%R with ((h * h) * (h * h))%R by ring. replace (h ^ 2)%R with (h * h)%R by ring. rewrite Hh. field. }
  assert (Ezz : tensor true Sz Sz v = (- / 2 / sqrt 6)%R).
  { unfold tensor. f_equal. unfold expect, anti, mul3, Sz, mat, v. cbn. field. }
  exists 1%R, (- / 2 / sqrt 6)%R, (- / 2 / sqrt 6)%R, v, T. eexists. split; [|split; [|split; [|split; [|split; [|split; [|split]]]]]].
  - unfold normalised. cbn [sumR]. rewrite !cmod2. unfold v. cbn. nra.
  - now rewrite Ep.
  - now rewrite Eyy.
  - now rewrite Ezz.
  - repeat split; unfold tensor, expect, anti, mul3, Sx, Sy, Sz, mat, v; cbn; fold h; field; apply Rgt_not_eq; exact P6.
  - erewrite prob_full by reflexivity. reflexivity.
  - unfold overlap. cbn [sumR]. rewrite cmod2. unfold v, T. cbn. nra.
  - assert (S15 : (sqrt 1.5 / sqrt 6 = / 2)%R). { replace 6%R with (2 * 2 * 1.5)%R by lra. rewrite sqrt_mult_alt, sqrt_square by lra. field. apply Rgt_not_eq, sqrt_lt_R0. lra. }
    assert (S1 : (sqrt 1.5 * (- / 2 / sqrt 6) = - / 4)%R). { replace (sqrt 1.5 * (- / 2 / sqrt 6))%R with (- / 2 * (sqrt 1.5 / sqrt 6))%R by (unfold Rdiv; ring). rewrite S15. field. }
    assert (S2 : (sqrt 6 * (- / 2 / sqrt 6) = - / 2)%R). { field. apply Rgt_not_eq. exact P6. }
    unfold T. cbn. set (t := (- / 2 / sqrt 6)%R) in *. set (k := sqrt 1.5) in *. set (q := sqrt 6) in *. set (d := sqrt 0.375).
    assert (Hd : (d * d = 0.375)%R) by (apply sqrt_sqrt; lra). assert (0 <= d)%R by apply sqrt_pos. assert (0 < h)%R by (apply Rinv_0_lt_compat, sqrt_lt_R0; lra).
    assert (Hdh : (d * h < 0.75)%R). { apply Rsqr_incrst_0; [unfold Rsqr; replace (d * h * (d * h))%R with ((d * d) * (h * h))%R by ring; rewrite Hd, Hh; lra| |lra]. apply Rmult_le_pos; lra. }
    match goal with |- (0 < ?e)%R => replace e with (/ 2 * (1 + k * t) + (1 - q * t) * (h * h) - 2 * (d * h) - 3 / 2 * (k * t))%R by field end.
    rewrite S1, S2, Hh. lra.
Qed.
Print Assumptions C84_one_refuted.

(** The function FCN_extPol written by generateSourceCode is made from three parameters of polarisation for every decaying
    particle with spin (src/PolarisedSum.cpp:372-373): for spin 1 five more are read beyond the end. *)
Theorem C84_external_refuted : exists s1 s2 p T, List.length p = 3%nat /\ (1 < s1)%nat /\ probExpression s1 s2 p [] T = UB.
Proof. exists 3%nat, 1%nat, (0 :: 0 :: 1 :: nil)%R, (fun _ _ => RtoC 0). repeat split. lia. Qed.
Print Assumptions C84_external_refuted.

(** A particle of spin 1 in the state (3/5, 0, 4/5), whose polarisation vector is along z. *)
Example C84_ex : let v := fun a => List.nth a [RtoC (3 / 5); RtoC 0; RtoC (4 / 5)] (RtoC 0) in
  normalised 3 v /\ expect 3 Sx v = 0%R /\ expect 3 Sy v = 0%R /\ expect 3 Sz v = (- 7 / 25)%R /\ (tensor true Sz Sz v * sqrt 6 = 1)%R.
Proof.
  cbv zeta. repeat split.
  - unfold normalised. cbn [sumR]. rewrite !cmod2. cbn. lra.
  - unfold expect, Sx, mat. cbn. field. apply Rgt_not_eq, sqrt_lt_R0; lra.
  - unfold expect, Sy, mat. cbn. field. apply Rgt_not_eq, sqrt_lt_R0; lra.
  - unfold expect, Sz, mat. cbn. lra.
  - unfold tensor, expect, anti, mul3, Sz, mat. cbn. field. apply Rgt_not_eq, sqrt_lt_R0; lra.
Qed.
