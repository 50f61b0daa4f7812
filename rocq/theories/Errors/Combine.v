From Coq Require Import Reals Lra.
From Verif.Errors Require Import Model Spec Sums Merge Proofs.
Local Open Scope R_scope.

Lemma form_over_l n C x y : form n C x y = over (upto n) (fun j => over (upto n) (fun i => x i * C i j) * y j).
Proof. unfold form. rewrite over_swap. apply over_ext. intros j _. now rewrite <- over_scale_r. Qed.

Lemma zero_or n (z : nat -> R) : (exists i, (i < n)%nat /\ z i <> 0) \/ forall i, (i < n)%nat -> z i = 0.
Proof.
  induction n as [|m IH]; [right; intros; lia|]. destruct IH as [(i & L & N)|A]; [left; exists i; split; [lia|exact N]|].
  destruct (Req_dec (z m) 0) as [Z | N]; [right|left; exists m; split; [lia|exact N]]. intros i L. destruct (Nat.eq_dec i m) as [-> |]; [exact Z|apply A; lia].
Qed.
(** Weights from the rows of an inverse. *)
Section Weights.
  Variables (n : nat) (c d : nat -> nat -> R).
  Hypothesis Sy : symmetric n c.
  Hypothesis Po : positive n c.
  Hypothesis In_ : right_inverse n c d.
  Hypothesis Nz : (0 < n)%nat.
  Let y (i : nat) : R := over (upto n) (fun j => d i j).
  Let t : R := over (upto n) y.
  Lemma form_y_c k : (k < n)%nat -> over (upto n) (fun i => y i * c i k) = 1.
  Proof.
    intro L. unfold y. transitivity (over (upto n) (fun i => over (upto n) (fun j => c k i * d i j))).
    - apply over_ext. intros i I. apply in_upto in I. rewrite (Sy i k I L). rewrite (over_scale (upto n) (c k i) (fun j => d i j)). ring.
    - rewrite over_swap. transitivity (over (upto n) (fun j => if Nat.eqb j k then 1 else 0)).
      + apply over_ext. intros j J. apply in_upto in J. rewrite In_ by assumption. unfold delta. now rewrite Nat.eqb_sym.
      + exact (over_delta n k (fun _ => 1) L).
  Qed.
  Lemma form_y z : form n c y z = over (upto n) z.
  Proof. rewrite form_over_l. apply over_ext. intros k K. apply in_upto in K. rewrite form_y_c by exact K. ring. Qed.
  Lemma t_pos : 0 < t.
  Proof.
    unfold t. rewrite <- form_y. apply Po. destruct (zero_or n y) as [X | A]; [exact X|]. exfalso. pose proof (form_y_c 0 Nz) as H. rewrite over_zero in H; [lra|]. intros i I. apply in_upto in I. rewrite A by exact I. ring.
  Qed.
  Definition w (i : nat) : R := y i / t.
  Lemma w_sum : over (upto n) w = 1.
  Proof. unfold w, Rdiv. rewrite over_scale_r. fold t. apply Rinv_r. pose proof t_pos. lra. Qed.
  Lemma form_w z : form n c w z = over (upto n) z / t.
  Proof. rewrite (form_ext n c w z (fun i => / t * y i) z) by (intros; auto; unfold w; field; pose proof t_pos; lra). rewrite form_scale_l, form_y. unfold Rdiv. ring. Qed.
  Lemma w_best u : over (upto n) u = 1 -> form n c w w <= form n c u u.
  Proof.
    intro H. rewrite (form_ext n c u u (fun i => w i + 1 * (u i - w i)) (fun i => w i + 1 * (u i - w i))) by (intros; ring). rewrite form_square by exact Sy.
    assert (Z : form n c w (fun i => u i - w i) = 0).
    { rewrite form_w. rewrite (over_ext _ _ (fun i => u i + (-1) * w i)) by (intros; ring). rewrite over_plus, over_scale, H, w_sum. field. pose proof t_pos; lra. }
    rewrite Z. assert (Q : 0 <= form n c (fun i => u i - w i) (fun i => u i - w i)).
    { assert (X : forall z, 0 <= form n c z z); [|apply X]. intro z. destruct (zero_or n z) as [Y | A]; [left; now apply Po|]. right. symmetry. apply over_zero. intros i I. apply over_zero. intros j _. apply in_upto in I. rewrite A by exact I. ring. }
    lra.
  Qed.
End Weights.

Section Run.
  Variables (p : propagator) (s : store).
  Hypothesis V : valid p s.
  Hypothesis W : wf p.
  Hypothesis Sy : symmetric (size p) (entry (cov p)).

  Lemma E_sym fs i j : E p s fs i j = E p s fs j i.
  Proof.
    destruct (E p s fs i j) as [r|] eqn:A.
    - apply E_inv in A as (x & y & X & Y & ->). rewrite (E_some p s fs j i y x Y X). f_equal. now apply form_sym.
    - destruct (E p s fs j i) as [r|] eqn:B; [|reflexivity]. apply E_inv in B as (x & y & X & Y & ->). rewrite (E_some p s fs i j y x Y X) in A. discriminate.
  Qed.
  Lemma correlation_ok fs : nonnegative (size p) (entry (cov p)) -> exists rho log, correlationMatrix p fs s = Ok (rho, s, log) /\ Forall (around p s) log /\
    forall i j, (i < List.length fs)%nat -> (j < List.length fs)%nat -> (forall r, rho i j = Some r -> -1 <= r <= 1) /\ rho i j = rho j i /\ (forall r, rho i i = Some r -> r = 1).
  Proof.
    intro P. unfold correlationMatrix. destruct (covariance_ok p s V W fs) as (C & log & -> & F & H). cbn [bind]. do 2 eexists. split; [reflexivity|]. split; [exact F|]. intros i j Li Lj.
    rewrite !H by assumption. rewrite (E_sym fs j i).
    assert (K : forall i j r, div_ (E p s fs i j) (sqrt_ (mul_ (E p s fs i i) (E p s fs j j))) = Some r -> exists x y, E p s fs i j = Some (form (size p) (entry (cov p)) x y) /\
      0 < form (size p) (entry (cov p)) x x * form (size p) (entry (cov p)) y y /\ E p s fs i i = Some (form (size p) (entry (cov p)) x x) /\ E p s fs j j = Some (form (size p) (entry (cov p)) y y) /\
      r = form (size p) (entry (cov p)) x y / sqrt (form (size p) (entry (cov p)) x x * form (size p) (entry (cov p)) y y)).
    { intros a b r Q. destruct (E p s fs a b) as [e|] eqn:Ee; [|discriminate]. pose proof Ee as Ee'. apply E_inv in Ee' as (x & y & X & Y & ->). rewrite (E_some p s fs a a x x X X), (E_some p s fs b b y y Y Y) in Q.
      exists x, y. split; [reflexivity|]. unfold mul_, lift2, sqrt_, div_ in Q. pose proof (P x). pose proof (P y).
      destruct (Rlt_dec _ 0) as [L | G]; [exfalso; nra|]. destruct (Req_EM_T _ 0) as [Z | Nz]; [discriminate|]. injection Q as <-.
      split; [|split; [now apply E_some|split; [now apply E_some|reflexivity]]]. destruct (Rle_lt_or_eq_dec 0 (form (size p) (entry (cov p)) x x * form (size p) (entry (cov p)) y y)) as [L | Z]; [lra|exact L|]. rewrite <- Z, sqrt_0 in Nz. now destruct Nz. }
    split; [|split].
    - intros r Q. apply K in Q as (x & y & _ & Pxy & _ & _ & ->). pose proof (cauchy _ _ x y Sy P) as Cs. pose proof (sqrt_lt_R0 _ Pxy) as Ps. pose proof (sqrt_sqrt _ (Rlt_le _ _ Pxy)) as Sq.
      set (q := sqrt _) in *. set (b := form (size p) (entry (cov p)) x y) in *. rewrite <- Sq in Cs. split; apply Rmult_le_reg_r with q; try exact Ps; unfold Rdiv; rewrite Rmult_assoc, Rinv_l by lra; nra.
    - unfold mul_, lift2. destruct (E p s fs i i) as [a|], (E p s fs j j) as [b|]; try reflexivity. now rewrite Rmult_comm.
    - intros r Q. apply K in Q as (x & y & E1 & Pxy & E2 & E3 & ->). rewrite E2 in E1, E3. injection E1 as E1. injection E3 as E3. rewrite <- E1, <- E3 in *. set (a := form (size p) (entry (cov p)) x x) in *.
      assert (Pa : 0 <= a) by apply P. rewrite sqrt_square by exact Pa. field. intro Z. rewrite Z in Pxy. lra.
  Qed.

  Section Combination.
    Variables (inverse : nat -> (nat -> nat -> R) -> nat -> nat -> R) (fs : list (store -> num)) (c : nat -> nat -> R).
    Notation M := (List.length fs).
    Hypothesis Hc : forall i j, (i < M)%nat -> (j < M)%nat -> E p s fs i j = Some (c i j).
    Hypothesis Pc : positive M c.
    Hypothesis Ic : forall A, (forall i j, (i < M)%nat -> (j < M)%nat -> A i j = c i j) -> right_inverse M c (inverse M A).
    Hypothesis Nz : (0 < M)%nat.
    Lemma c_sym : symmetric M c.
    Proof. intros i j Li Lj. pose proof (Hc i j Li Lj) as A. pose proof (Hc j i Lj Li) as B. rewrite E_sym in A. congruence. Qed.
    Lemma wt_over n d : wt n d = over (upto n) (fun i => over (upto n) (fun j => d i j)).
    Proof. unfold wt. rewrite sum_over. apply over_ext. intros i _. apply sum_over. Qed.
    Lemma all_some_ok C : (forall i j, (i < M)%nat -> (j < M)%nat -> C i j = E p s fs i j) -> exists A, all_some M C = Some A /\ forall i j, (i < M)%nat -> (j < M)%nat -> A i j = c i j.
    Proof.
      intro H. unfold all_some. assert (F : forallb (fun xy => match C (fst xy) (snd xy) with Some _ => true | None => false end) (square M) = true).
      { apply forallb_forall. intros [x y] I. apply in_square in I as [I J]. cbn [fst snd]. now rewrite H, Hc. }
      rewrite F. eexists. split; [reflexivity|]. intros i j Li Lj. cbv beta. now rewrite H, Hc.
    Qed.
    Lemma combination_ok : exists Wt log pred log' u, combinationWeights p inverse fs s = Ok (Wt, s, log) /\ (forall i, (i < M)%nat -> Wt i = Some (u i)) /\ over (upto M) u = 1 /\
      (forall v, over (upto M) v = 1 -> form M c u u <= form M c v v) /\
      combinationCovWeighted p inverse fs s = Ok ((pred, Some (sqrt (form M c u u))), s, log') /\ (forall x, (forall i, (i < M)%nat -> nth i fs no_function s = Some (x i)) -> pred = Some (over (upto M) (fun i => u i * x i))) /\ last log' [] = s.
    Proof.
      unfold combinationWeights, combinationCovWeighted. destruct (covariance_ok p s V W fs) as (C & log & -> & F & H). cbn [bind]. destruct (all_some_ok C H) as (A & -> & HA).
      set (d := inverse M A). pose proof (Ic A HA) as R. fold d in R. pose proof c_sym as Sc. pose proof (t_pos M c d Sc Pc R Nz) as Pt.
      assert (Et : wt M d = over (upto M) (fun i => over (upto M) (fun j => d i j))) by apply wt_over.
      assert (Wn : forall i, w M d i = over (upto M) (fun j => d i j) / wt M d) by (intro i; unfold w; now rewrite Et).
      rewrite <- Et in Pt. set (t := wt M d) in *.
      do 5 eexists. split; [reflexivity|]. split; [|split; [exact (w_sum M c d Sc Pc R Nz)|split; [exact (w_best M c d Sc Pc R Nz)|split; [|split]]]].
      - intros i _. unfold weights_of. rewrite (sum_some M _ (fun j => d i j / t)).
        + f_equal. rewrite Wn. unfold Rdiv. now rewrite over_scale_r.
        + intros j _. unfold div_. fold t. destruct (Req_EM_T t 0); [lra|reflexivity].
      - f_equal. f_equal. f_equal. f_equal. unfold mul_ at 1. unfold lift2. fold t.
        rewrite (sum_some M _ (fun i => over (upto M) (fun j => w M d i * c i j * w M d j))).
        + change (over (upto M) (fun i => over (upto M) (fun j => w M d i * c i j * w M d j))) with (form M c (w M d) (w M d)). unfold sqrt_. destruct (Rlt_dec _ 0) as [L | _]; [|reflexivity]. exfalso.
          rewrite (form_w M c d Sc Pc R Nz), (w_sum M c d Sc Pc R Nz) in L. rewrite <- Et in L. fold t in L. pose proof (Rinv_0_lt_compat t Pt). unfold Rdiv in L. lra.
        + intros i Li. apply sum_some. intros j Lj. unfold div_. destruct (Req_EM_T (t * t) 0) as [Z | _]; [nra|]. f_equal. rewrite !Wn, !sum_over, HA by assumption. fold t. field. lra.
      - intros x X. apply sum_some. intros i Li. change (fun _ : store => None) with no_function. rewrite X by exact Li. unfold mul_, lift2, div_. fold t. destruct (Req_EM_T t 0); [lra|]. f_equal. rewrite Wn, sum_over. fold t. field. lra.
      - destruct fs as [|f r]; [cbn in Nz; lia|]. clear. assert (X : forall (a : list (store -> num)) f l, last (l ++ map (fun _ => s) (f :: a)) [] = s); [|apply X].
        induction a as [|g a IH]; intros h l; [apply last_last|]. cbn [map]. specialize (IH g (l ++ [s])). rewrite <- app_assoc in IH. exact IH.
    Qed.
  End Combination.
End Run.
