From Verif.Common Require Import Prelude.
From Coq Require Import Reals Lra Psatz.
From Coquelicot Require Import Hierarchy Rbar Lim_seq Continuity Derive AutoDerive RInt RInt_analysis Complex.
From Coq Require Import List.
From Verif.Lineshapes Require Import Model Spec BarrierProofs BWProofs.
Local Open Scope R_scope.

(** ** Components *)
Lemma over_den k x y : x <> 0 \/ y <> 0 -> (RtoC k / den x y)%C = (k * x / (x * x + y * y), k * y / (x * x + y * y)).
Proof.
  intro H. assert (x * x + y * y <> 0) by (destruct H; nra). rewrite den_pair. unfold Cdiv, Cinv, Cmult, RtoC. cbn. f_equal; field; lra.
Qed.
Lemma scaled a b z : (RtoC a * (RtoC b * z))%C = (RtoC (a * b) * z)%C.
Proof. rewrite RtoC_mult. ring. Qed.
Lemma sbw_pair s m w : 0 < m -> 0 < w -> SBW s m w =
  (kFactor m w * (m * m - s) / ((m * m - s) * (m * m - s) + m * w * (m * w)), kFactor m w * (m * w) / ((m * m - s) * (m * m - s) + m * w * (m * w))).
Proof.
  intros M W. unfold SBW. change (RtoC (m * m - s) - Ci * RtoC (m * w))%C with (den (m * m - s) (m * w)).
  unfold Cdiv. rewrite Cmult_1_l. apply (over_den (kFactor m w)). right. nra.
Qed.
Lemma nonrel_pair s m w : 0 < w -> NonRelBW s m w =
  (sqrt (w / 2 / PI) * (sqrt s - m) / ((sqrt s - m) * (sqrt s - m) + w / 2 * (w / 2)), sqrt (w / 2 / PI) * (w / 2) / ((sqrt s - m) * (sqrt s - m) + w / 2 * (w / 2))).
Proof. intro W. unfold NonRelBW. change (RtoC (sqrt s - m) - Ci * RtoC (w / 2))%C with (den (sqrt s - m) (w / 2)). apply over_den. right. lra. Qed.
Lemma ratio_den k x y d : k <> 0 -> y <> 0 -> d <> 0 -> k * x / d / (k * y / d) = x / y. Proof. intros. field. auto. Qed.

Lemma nonrel_abs2 m w E : 0 < w -> 0 <= E -> abs2 (NonRelBW (E * E) m w) = w / 2 / PI / ((E - m) * (E - m) + w / 2 * (w / 2)).
Proof.
  intros W H. pose proof PI_RGT_0. unfold NonRelBW. rewrite sqrt_square by assumption. change (RtoC (E - m) - Ci * RtoC (w / 2))%C with (den (E - m) (w / 2)).
  rewrite abs2_div, abs2_RtoC, den_abs2 by (apply den_neq; right; lra). rewrite sqrt_sqrt; [reflexivity|]. apply Rlt_le, Rdiv_lt_0_compat; lra.
Qed.
Lemma cauchy_pos x w : 0 < w -> 0 < x * x + w / 2 * (w / 2).
Proof. intro W. pose proof (Rle_0_sqr x). unfold Rsqr in *. assert (0 < w / 2 * (w / 2)) by (apply Rmult_lt_0_compat; lra). lra. Qed.
Lemma nonrel_integral m w a b : 0 < w -> 0 <= a -> a <= b -> mass_integral (fun s => NonRelBW s m w) a b = (atan (2 * (b - m) / w) - atan (2 * (a - m) / w)) / PI.
Proof.
  intros W A AB. pose proof PI_RGT_0 as P. unfold mass_integral.
  rewrite (RInt_ext _ (fun E => w / 2 / PI / ((E - m) * (E - m) + w / 2 * (w / 2)))).
  2:{ intros E HE. rewrite Rmin_left, Rmax_right in HE by assumption. apply nonrel_abs2; lra. }
  apply is_RInt_unique. replace ((atan (2 * (b - m) / w) - atan (2 * (a - m) / w)) / PI) with (minus (/ PI * atan (2 * (b - m) / w)) (/ PI * atan (2 * (a - m) / w))).
  2:{ unfold minus, plus, opp. cbn. field. lra. }
  apply (is_RInt_derive (V := R_CompleteNormedModule) (fun E => / PI * atan (2 * (E - m) / w))); intros E _.
  - auto_derive; [exact I|]. pose proof (cauchy_pos (E - m) w W). set (x := E + - m). assert (1 + 2 * x * / w * (2 * x * / w * 1) = 4 * (x * x + w / 2 * (w / 2)) / (w * w)) as -> by (field; lra).
    change (E - m) with x in *. field. repeat split; lra.
  - apply (ex_derive_continuous (fun E => w / 2 / PI / ((E - m) * (E - m) + w / 2 * (w / 2)))). auto_derive. pose proof (cauchy_pos (E - m) w W). unfold Rminus in *. lra.
Qed.

(** ** Gounaris-Sakurai *)
Lemma gs_q_open mpi s : 0 < gs_q2 mpi s -> gs_q mpi s = sqrt (s - 4 * mpi * mpi).
Proof. intro H. unfold gs_q, safe_sqrt. destruct (Rlt_dec 0 (gs_q2 mpi s)); [reflexivity|contradiction]. Qed.
Lemma gs_log_open mpi s : 0 < gs_q2 mpi s -> gs_log mpi s = ln ((sqrt s + sqrt (s - 4 * mpi * mpi)) / (2 * mpi)).
Proof. intro H. unfold gs_log, safe_sqrt. destruct (Rlt_dec 0 (gs_q2 mpi s)); [reflexivity|contradiction]. Qed.
Section GS.
  Variables (mpi m w : R).
  Hypotheses (Hpi : 0 < mpi) (Hm : 2 * mpi < m).
  Lemma gs_open : 0 < gs_q2 mpi (m * m). Proof. unfold gs_q2. nra. Qed.
  Lemma gs_at : gs_M2 mpi m w (m * m) = m * m.
  Proof.
    pose proof gs_open as O. assert (Q : gs_q mpi (m * m) * gs_q mpi (m * m) = gs_q2 mpi (m * m) /\ 0 < gs_q mpi (m * m)).
    { unfold gs_q, safe_sqrt. destruct (Rlt_dec 0 (gs_q2 mpi (m * m))); [|lra]. split; [apply sqrt_sqrt; lra|now apply sqrt_lt_R0]. }
    destruct Q as [Q QP]. unfold gs_M2. rewrite sqrt_square by lra. rewrite <- Q in *. set (q := gs_q mpi (m * m)) in *. set (l := gs_log mpi (m * m)).
    pose proof PI_RGT_0. field. repeat split; nra.
  Qed.
  Let explicit (s : R) : R :=
    let s0 := m * m in let q0 := gs_q mpi s0 in let l0 := gs_log mpi s0 in
    s0 + w * (2 * s0 * (s - 4 * mpi * mpi) * sqrt (s - 4 * mpi * mpi) * ln ((sqrt s + sqrt (s - 4 * mpi * mpi)) / (2 * mpi)) / (sqrt s * q0 ^ 3) +
              l0 * ((s - 4 * mpi * mpi) * (s - 3 * s0) + s * (s0 - s)) / (m * (q0 * q0)) + (s0 - s) / q0) / PI.
  Lemma gs_flat : is_derive (gs_M2 mpi m w) (m * m) 0.
  Proof.
    pose proof gs_open as O. assert (Q : gs_q mpi (m * m) * gs_q mpi (m * m) = gs_q2 mpi (m * m) /\ 0 < gs_q mpi (m * m) /\ gs_q mpi (m * m) = sqrt (m * m - 4 * mpi * mpi)).
    { unfold gs_q, safe_sqrt. destruct (Rlt_dec 0 (gs_q2 mpi (m * m))); [|lra]. repeat split; [apply sqrt_sqrt; lra|now apply sqrt_lt_R0]. }
    destruct Q as (Q & QP & Q').
    apply (is_derive_ext_loc explicit).
    - assert (e : 0 < m * m - 4 * mpi * mpi) by exact O. exists (mkposreal _ e). intros s Hs. unfold ball in Hs. cbn in Hs. unfold AbsRing_ball, abs, minus, plus, opp in Hs. cbn in Hs.
      apply Rabs_def2 in Hs. unfold gs_M2, explicit. assert (S : 0 < gs_q2 mpi s) by (unfold gs_q2; lra).
      rewrite Q, (gs_q_open mpi s S), (gs_log_open mpi s S). reflexivity.
    - unfold explicit. pose proof PI_RGT_0 as P. set (l0 := gs_log mpi (m * m)).
      assert (L : l0 = ln ((m + gs_q mpi (m * m)) / (2 * mpi))) by (unfold l0; rewrite gs_log_open by exact O; rewrite sqrt_square, <- Q' by lra; reflexivity).
      assert (N : 0 < (m + gs_q mpi (m * m)) * / (2 * mpi)) by (apply Rmult_lt_0_compat; [lra|apply Rinv_0_lt_compat; lra]).
      auto_derive; change (m * m + - (4 * mpi * mpi)) with (m * m - 4 * mpi * mpi); rewrite <- ?Q', ?sqrt_square by lra.
      + repeat split; trivial; try nra. apply Rgt_not_eq. rewrite Rmult_1_r. repeat apply Rmult_lt_0_compat; lra.
      + change (ln ((m + gs_q mpi (m * m)) * / (2 * mpi))) with (ln ((m + gs_q mpi (m * m)) / (2 * mpi))). rewrite <- L.
        assert (E : m * m - 4 * mpi * mpi = gs_q mpi (m * m) * gs_q mpi (m * m)) by (rewrite Q; reflexivity). rewrite E.
        set (q := gs_q mpi (m * m)) in *. clearbody q l0. clear - QP P Hm Hpi. field. repeat split; lra.
  Qed.
End GS.

(** ** Unitarity *)
Lemma elastic_den rho g x y : rho * g = y -> x <> 0 \/ y <> 0 -> elastic rho (RtoC g / den x y)%C.
Proof.
  intros G H. unfold elastic, smatrix. rewrite over_den by assumption. assert (D : x * x + y * y <> 0) by (destruct H; nra).
  unfold abs2, RtoC, Ci, Cplus, Cmult. cbn. subst y. field. assumption.
Qed.
Definition strength (m : modifier) (s s1 s2 mass width0 radius : R) (L : nat) : R :=
  match m with BELLE2018 => 1 | _ => kFactor mass width0 end * FormFactor m s s1 s2 mass radius L.
Lemma bw_form m s s1 s2 mass width0 radius L :
  BW m s s1 s2 mass width0 radius L = (RtoC (strength m s s1 s2 mass width0 radius L) / den (mass * mass - s) (mass * width s s1 s2 mass width0 radius L))%C.
Proof. unfold BW, strength, Cdiv. fold (den (mass * mass - s) (mass * width s s1 s2 mass width0 radius L)). destruct m; rewrite ?Rmult_1_l, ?RtoC_mult; ring. Qed.
Lemma rescale k g x y : k <> 0 -> (RtoC (g / k) * (RtoC k / den x y))%C = (RtoC g / den x y)%C.
Proof. intro H. unfold Cdiv. replace (RtoC g) with (RtoC (g / k) * RtoC k)%C; [ring|]. rewrite <- RtoC_mult. f_equal. field. assumption. Qed.

Lemma one_over x y : x <> 0 \/ y <> 0 -> let A := (RtoC 1 / (x, y))%C in snd A = - y * abs2 A.
Proof. intros H A. assert (D : x * x + y * y <> 0) by (destruct H; nra). unfold A, abs2, Cdiv, Cinv, Cmult, RtoC. cbn. field. lra. Qed.
Lemma flatte_den mass W s : (RtoC (mass * mass) - Ci * RtoC mass * W - RtoC s)%C = (mass * mass - s + mass * snd W, - (mass * fst W)).
Proof. destruct W as [a b]. unfold RtoC, Ci, Cminus, Cplus, Copp, Cmult. cbn. f_equal; ring. Qed.
Lemma complex_sqrt_pos x : 0 < x -> complex_sqrt x = RtoC (sqrt x).
Proof. intro H. unfold complex_sqrt. destruct (Rlt_dec 0 x); [reflexivity|lra]. Qed.
Lemma complex_sqrt_neg x : x <= 0 -> complex_sqrt x = (0, sqrt (- x)).
Proof. intro H. unfold complex_sqrt. destruct (Rlt_dec 0 x); [lra|]. unfold Ci, RtoC, Cmult. cbn. f_equal; ring. Qed.
Lemma complex_sqrt_sq x : (complex_sqrt x * complex_sqrt x)%C = RtoC x.
Proof.
  destruct (Rlt_dec 0 x) as [H|H].
  - rewrite complex_sqrt_pos by assumption. rewrite <- RtoC_mult, sqrt_sqrt by lra. reflexivity.
  - rewrite complex_sqrt_neg by lra. unfold Cmult, RtoC. cbn. f_equal; [|ring]. rewrite sqrt_sqrt by lra. ring.
Qed.
Lemma fst_add a b : fst (a + b)%C = fst a + fst b. Proof. reflexivity. Qed.
Lemma fst_scal k z : fst (RtoC k * z)%C = k * fst z. Proof. destruct z as [a b]. cbn. ring. Qed.
Lemma snd_scal k z : snd (RtoC k * z)%C = k * snd z. Proof. destruct z as [a b]. cbn. ring. Qed.
Lemma open_pair s m : 0 < s -> 4 * m * m < s -> 0 < 1 - 4 * m * m / s.
Proof. intros H K. replace (1 - 4 * m * m / s) with ((s - 4 * m * m) / s) by (field; lra). apply Rdiv_lt_0_compat; lra. Qed.
Lemma closed_pair s m : 0 < s -> s <= 4 * m * m -> 1 - 4 * m * m / s <= 0.
Proof. intros H K. assert (0 <= (4 * m * m - s) / s) by (apply Rmult_le_pos; [lra|apply Rlt_le, Rinv_0_lt_compat, H]). replace (1 - 4 * m * m / s) with (- ((4 * m * m - s) / s)) by (field; lra). lra. Qed.
Lemma aSqrt_fst s m : aSqrtTerm s m = fst (fSqrtTerm s m).
Proof.
  unfold aSqrtTerm, fSqrtTerm. destruct (Rlt_dec 0 (1 - 4 * m * m / s)) as [H|H]; [now rewrite complex_sqrt_pos|]. rewrite complex_sqrt_neg by lra. reflexivity.
Qed.
Lemma flatte_f0 h cut g r s : flatte_width h (S_ "f(0)(980)0") cut g r s =
  (RtoC g * (RtoC (1 / 3) * fSqrtTerm s (mPi0 h) + RtoC (2 / 3) * fSqrtTerm s (mPiPlus h) +
             RtoC r * (if cut then RtoC (1 / 2 * aSqrtTerm s (mK0 h) + 1 / 2 * aSqrtTerm s (mKPlus h)) else RtoC (1 / 2) * fSqrtTerm s (mK0 h) + RtoC (1 / 2) * fSqrtTerm s (mKPlus h))))%C.
Proof. reflexivity. Qed.
