From Verif.Common Require Import Prelude.
From Coq Require Import Reals Lra Lia.
From Coquelicot Require Import Hierarchy Complex.
From Verif.Polarised Require Import Model Spec Proofs.
Local Open Scope C_scope.

(** ** Combinations *)
Lemma number_from {A} (l : list (list A)) k : fold_left (fun nc s => (nc * List.length s)%nat) l k = (k * number l)%nat.
Proof. unfold number. revert k. induction l as [|e l IH]; intro k; cbn; [lia|]. rewrite IH, (IH (List.length e + 0)%nat). lia. Qed.
Lemma number_cons {A} (e : list A) l : number (e :: l) = (List.length e * number l)%nat.
Proof. unfold number at 1. cbn [fold_left]. rewrite number_from. lia. Qed.
Lemma lex_length {A} (l : list (list A)) : List.length (lex l) = number l.
Proof.
  induction l as [|e l IH]; [reflexivity|]. rewrite number_cons. cbn [lex]. induction e as [|x e IHe]; [reflexivity|]. cbn [flat_map]. rewrite app_length, map_length, IH, IHe. cbn. lia.
Qed.
Lemma lex_nth {A} (e : list A) l a b x : nth_error e a = Some x -> (b < number l)%nat -> nth (a * number l + b) (lex (e :: l)) [] = x :: nth b (lex l) [].
Proof.
  cbn [lex]. revert a. induction e as [|y e IH]; intros a Ha Hb; [destruct a; discriminate|]. cbn [flat_map]. destruct a as [|a].
  - cbn in Ha. injection Ha as ->. cbn [Nat.mul Nat.add]. rewrite app_nth1 by (rewrite map_length, lex_length; exact Hb). 
    rewrite nth_indep with (d' := x :: []) by (rewrite map_length, lex_length; exact Hb). now rewrite (map_nth (cons x)).
  - cbn in Ha. rewrite app_nth2 by (rewrite map_length, lex_length; nia). rewrite map_length, lex_length. replace (S a * number l + b - number l)%nat with (a * number l + b)%nat by nia. now apply IH.
Qed.
Lemma digits_lex {A} (els : list (list A)) : forall rest q i acc, (i < number els)%nat ->
  digits (rev els ++ rest) (q * number els + i) acc = digits rest q (nth i (lex els) [] ++ acc).
Proof.
  induction els as [|e els IH]; intros rest q i acc Hi.
  - cbn in Hi. assert (i = 0)%nat by lia. subst. cbn. now replace (q * 1 + 0)%nat with q by lia.
  - rewrite number_cons in *. cbn [rev]. rewrite <- app_assoc. set (N := number els) in *. assert (PN : (0 < N)%nat) by nia.
    pose proof (Nat.div_mod i N ltac:(lia)) as Di. set (a := (i / N)%nat) in *. set (b := (i mod N)%nat) in *.
    assert (Hb : (b < N)%nat) by (apply Nat.mod_upper_bound; lia). assert (Ha : (a < List.length e)%nat) by nia.
    replace (q * (List.length e * N) + i)%nat with ((q * List.length e + a) * N + b)%nat by nia. rewrite IH by exact Hb. cbn [app digits].
    assert (Et : ((q * List.length e + a) mod List.length e = a)%nat) by (rewrite Nat.add_comm, Nat.mod_add, Nat.mod_small; lia). rewrite Et.
    destruct (nth_error e a) as [x|] eqn:Ex; [|apply nth_error_None in Ex; lia]. cbn [of_opt bind].
    replace (q * List.length e + a - a)%nat with (q * List.length e)%nat by lia. rewrite Nat.div_mul by lia.
    replace i with (a * N + b)%nat by lia. unfold N. now rewrite (lex_nth e els a b x Ex Hb).
Qed.
Lemma combinations_lex {A} (els : list (list A)) : all_combinations els = map Ok (lex els).
Proof.
  unfold all_combinations. apply nth_ext with (d := Ok []) (d' := Ok []).
  - now rewrite !map_length, seq_length, lex_length.
  - intros i Hi. rewrite map_length, seq_length in Hi.
    rewrite (nth_indep _ (Ok []) (digits (rev els) 0 [])) by now rewrite map_length, seq_length.
    rewrite (map_nth (fun i => digits (rev els) i [])). rewrite seq_nth by exact Hi. rewrite (map_nth (@Ok (list A))).
    pose proof (digits_lex els [] 0 i [] Hi) as E. rewrite app_nil_r in E. cbn [Nat.mul Nat.add digits] in *. rewrite E. now rewrite app_nil_r.
Qed.
(** ** Spin 1/2 *)
Lemma half_term px py pz (x y z w : R) : (0 < 1 + pz \/ 0 < 1 - pz -> px * px + py * py + pz * pz <= 1 ->
  0 <= (1 + pz) * (x * x + y * y) + (1 - pz) * (z * z + w * w) + 2 * (px * (x * z + y * w) + py * (x * w - y * z)))%R.
Proof.
  intros [A|A] B.
  - apply (Rmult_le_reg_l (1 + pz)); [exact A|]. rewrite Rmult_0_r.
    replace ((1 + pz) * _)%R with (((1 + pz) * x + px * z + py * w) ^ 2 + ((1 + pz) * y + px * w - py * z) ^ 2 + (1 - (px * px + py * py + pz * pz)) * (z * z + w * w))%R by ring.
    assert (0 <= (1 - (px * px + py * py + pz * pz)) * (z * z + w * w))%R by (apply Rmult_le_pos; [lra|nra]). pose proof (pow2_ge_0 ((1 + pz) * x + px * z + py * w)). pose proof (pow2_ge_0 ((1 + pz) * y + px * w - py * z)). lra.
  - apply (Rmult_le_reg_l (1 - pz)); [exact A|]. rewrite Rmult_0_r.
    replace ((1 - pz) * _)%R with (((1 - pz) * z + px * x - py * y) ^ 2 + ((1 - pz) * w + px * y + py * x) ^ 2 + (1 - (px * px + py * py + pz * pz)) * (x * x + y * y))%R by ring.
    assert (0 <= (1 - (px * px + py * py + pz * pz)) * (x * x + y * y))%R by (apply Rmult_le_pos; [lra|nra]). pose proof (pow2_ge_0 ((1 - pz) * z + px * x - py * y)). pose proof (pow2_ge_0 ((1 - pz) * w + px * y + py * x)). lra.
Qed.
Definition half_f (px py pz : R) (T0 T1 : C) : R :=
  ((1 + pz) * (Re T0 * Re T0 + Im T0 * Im T0) + (1 - pz) * (Re T1 * Re T1 + Im T1 * Im T1)
   + 2 * (px * (Re T0 * Re T1 + Im T0 * Im T1) + py * (Re T0 * Im T1 - Im T0 * Re T1)))%R.
Lemma half_prob s2 px py pz rest T : probExpression 2 s2 (px :: py :: pz :: rest) [] T = Ok (sumR s2 (fun f => half_f px py pz (T 0%nat f) (T 1%nat f))).
Proof.
  erewrite prob_full by reflexivity. f_equal. rewrite (csum_swap3 2 2 s2). rewrite csum_re. apply sumR_ext. intros f _. destruct (T 0%nat f) as [x y] eqn:E0. destruct (T 1%nat f) as [z w] eqn:E1. unfold half_f. cbn. rewrite ?E0, ?E1. cbn. ring.
Qed.

(** ** Spin 1 *)
Lemma rt2 : (/ sqrt 2 * / sqrt 2 = / 2)%R.
Proof. rewrite <- Rinv_mult. now rewrite sqrt_sqrt by lra. Qed.
Lemma k15 : sqrt (3 / 2) = sqrt 1.5. Proof. f_equal. lra. Qed.
Lemma k6 : sqrt 6 = (2 * sqrt 1.5)%R.
Proof. replace 6%R with (2 * 2 * 1.5)%R by lra. rewrite sqrt_mult_alt, sqrt_square by lra. reflexivity. Qed.
Lemma k3 : (sqrt 3 = 2 * (/ sqrt 2 * sqrt 1.5))%R.
Proof.
  replace 3%R with (2 * 1.5)%R by lra. rewrite sqrt_mult_alt by lra. assert (0 < sqrt 2)%R by (apply sqrt_lt_R0; lra).
  assert (E : (sqrt 2 * sqrt 2 = 2)%R) by (apply sqrt_sqrt; lra). apply (Rmult_eq_reg_l (sqrt 2)); [|lra].
  replace (sqrt 2 * (2 * (/ sqrt 2 * sqrt 1.5)))%R with (2 * sqrt 1.5)%R by (field; lra). rewrite <- Rmult_assoc, E. reflexivity.
Qed.
Lemma spin1_along_z pz Tyy Tzz Txy Txz Tyz a b m : rho 3 (0 :: 0 :: pz :: Tyy :: Tzz :: Txy :: Txz :: Tyz :: nil)%R = Ok m -> (a < 3)%nat -> (b < 3)%nat ->
  m a b = spin1_density 0 0 pz Tyy Tzz Txy Txz Tyz a b.
Proof.
  intros Hr Ha Hb. cbn [rho] in Hr. injection Hr as <-. unfold spin1_density. rewrite k15, k6, k3. unfold anti, mul3, Sx, Sy, Sz, mat.
  pose proof rt2 as H2. set (h := (/ sqrt 2)%R) in *. set (k := sqrt 1.5). set (d := sqrt 0.375). clearbody h k d.
  destruct (lt3 a Ha) as [-> |[-> | ->]]; destruct (lt3 b Hb) as [-> |[-> | ->]]; cbn; apply injective_projections; cbn;
   ring_simplify; try replace (h ^ 2)%R with (/ 2)%R by (rewrite <- H2; ring); try lra.
Qed.
Lemma pure_overlap m v s2 T : (forall a b, (a < 3)%nat -> (b < 3)%nat -> m a b = RtoC 3 * (v a * Cconj (v b))) ->
  Re (csum 3 (fun m1 => csum 3 (fun m2 => csum s2 (fun f => m m2 m1 * (T m1 f * Cconj (T m2 f)))))) = (3 * overlap 3 s2 v T)%R.
Proof.
  intro H. rewrite (csum_swap3 3 3 s2), csum_re. unfold overlap.
  assert (E : forall n g, (3 * sumR n g = sumR n (fun f => 3 * g f))%R) by (intros n g; induction n as [|n IHn]; cbn; [ring|rewrite <- IHn; ring]). rewrite E.
  apply sumR_ext. intros f _. rewrite cmod2. rewrite (csum_ext 3 _ (fun m1 => csum 3 (fun m2 => RtoC 3 * (v m2 * Cconj (v m1)) * (T m1 f * Cconj (T m2 f)))))
   by (intros m1 H1; apply csum_ext; intros m2 H2; now rewrite H).
  cbn. ring.
Qed.
Lemma k_tensor i A B v : (sqrt (3 / 2) * tensor i A B v = 3 / 4 * expect 3 (anti A B) v - (if i then 1 else 0))%R.
Proof.
  unfold tensor. rewrite k15, k6. assert (0 < sqrt 1.5)%R by (apply sqrt_lt_R0; lra). destruct i; field; lra.
Qed.
Lemma density_split px py pz Tyy Tzz Txy Txz Tyz a b : spin1_density px py pz Tyy Tzz Txy Txz Tyz a b =
  delta a b + RtoC (3 / 2) * (RtoC px * Sx a b + RtoC py * Sy a b + RtoC pz * Sz a b)
  + (RtoC (- (sqrt (3 / 2) * Tyy) - sqrt (3 / 2) * Tzz) * anti Sx Sx a b + RtoC (sqrt (3 / 2) * Tyy) * anti Sy Sy a b + RtoC (sqrt (3 / 2) * Tzz) * anti Sz Sz a b
     + (RtoC (2 * (sqrt (3 / 2) * Txy)) * anti Sx Sy a b + RtoC (2 * (sqrt (3 / 2) * Txz)) * anti Sx Sz a b + RtoC (2 * (sqrt (3 / 2) * Tyz)) * anti Sy Sz a b)).
Proof.
  unfold spin1_density. set (k := sqrt (3 / 2)). replace (RtoC (- (k * Tyy) - k * Tzz)) with (RtoC k * RtoC (- Tyy - Tzz)) by (rewrite <- RtoC_mult; f_equal; ring).
  rewrite !RtoC_mult. ring.
Qed.
Lemma h2 h n : (h * h = / 2)%R -> (h ^ S (S n) = / 2 * h ^ n)%R. Proof. intro H. cbn [pow]. rewrite <- Rmult_assoc, H. reflexivity. Qed.
Lemma spin1_pure v a b : normalised 3 v -> (a < 3)%nat -> (b < 3)%nat ->
  spin1_density (expect 3 Sx v) (expect 3 Sy v) (expect 3 Sz v) (tensor true Sy Sy v) (tensor true Sz Sz v) (tensor false Sx Sy v) (tensor false Sx Sz v) (tensor false Sy Sz v) a b
  = RtoC 3 * (v a * Cconj (v b)).
Proof.
  intros Hv Ha Hb. unfold normalised in Hv. cbn [sumR] in Hv. rewrite !cmod2 in Hv. rewrite density_split, !k_tensor. unfold expect, anti, mul3, Sx, Sy, Sz, mat.
  pose proof rt2 as H2. set (h := (/ sqrt 2)%R) in *. clearbody h. cbn [csum].
  destruct (v 0%nat) as [v0 w0] eqn:E0, (v 1%nat) as [v1 w1] eqn:E1, (v 2%nat) as [v2 w2] eqn:E2. cbn [Re Im fst snd] in Hv.
  destruct (lt3 a Ha) as [-> |[-> | ->]]; destruct (lt3 b Hb) as [-> |[-> | ->]]; rewrite ?E0, ?E1, ?E2; apply injective_projections; cbn;
   ring_simplify; rewrite ?(h2 h _ H2); ring_simplify; rewrite ?(h2 h _ H2); cbn [pow]; lra.
Qed.
