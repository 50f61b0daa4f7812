(** C82: Padé approximants. *)
From Verif.Common Require Import Prelude.
From Coq Require Import Reals Lra Lia.
From Verif.Pade Require Import Model Spec Proofs.
Local Open Scope R_scope.

(** The value of the approximant is a quotient of two polynomials of degree N in the position within the range, the second
    with the constant term 1, and at each of the 2N + 1 samples, the first of which is the lower and the last the upper end of
    the range, it is that of the function, unless the denominator vanishes there. *)
Theorem C82_interpolates (fcn : R -> R) (min max : R) (N : nat) (strat : strategy) (X : nat -> nat -> R) :
  min <> max -> (0 < N)%nat -> inverse_of (2 * N) (solver fcn min max N strat) X ->
  let p := make (solve_pade X fcn min max N strat) N min max in
  exists f g, g 0%nat = 1 /\
  (forall s, eval p N s = poly f N ((s - min) / (max - min)) / poly g N ((s - min) / (max - min))) /\
  (forall k, (k <= 2 * N)%nat -> let x := (INR k / INR (2 * N)) ^ (number strat + 1) in
     poly g N x <> 0 -> eval p N (min + x * (max - min)) = fcn (min + x * (max - min))) /\
  (poly g N 0 <> 0 -> eval p N min = fcn min) /\ (poly g N 1 <> 0 -> eval p N max = fcn max).
Proof.
  intros D HN I p. set (r := solve_pade X fcn min max N strat) in *.
  assert (K : forall k, (k <= 2 * N)%nat -> let x := (INR k / INR (2 * N)) ^ (number strat + 1) in
     poly (den_co r N) N x <> 0 -> eval p N (min + x * (max - min)) = fcn (min + x * (max - min))).
  { intros k Hk x Hx. unfold p. rewrite eval_eq. replace (min + x * (max - min) - min) with (x * (max - min) + min - min) by ring. rewrite back by exact D.
    pose proof (solves X fcn min max N strat k I Hk) as E. rewrite row in E. fold r in E. change (sample N strat k) with x in E.
    replace (fcn (min + x * (max - min))) with (rest fcn min max N strat k) by (unfold rest; change (sample N strat k) with x; f_equal; ring).
    apply (Rmult_eq_reg_r (poly (den_co r N) N x)); [|exact Hx]. unfold Rdiv. rewrite Rmult_assoc, Rinv_l by exact Hx. lra. }
  exists r, (den_co r N). split; [reflexivity|]. split; [intro s; apply eval_eq|]. split; [exact K|].
  assert (N2 : INR (2 * N) <> 0) by (apply not_0_INR; lia). split.
  - assert (E0 : (INR 0 / INR (2 * N)) ^ (number strat + 1) = 0) by (cbn [INR]; unfold Rdiv; rewrite Rmult_0_l; apply pow_i; lia).
    intro H. pose proof (K 0%nat ltac:(lia)) as E. cbv zeta in E. rewrite E0 in E. specialize (E H). now rewrite Rmult_0_l, Rplus_0_r in E.
  - assert (E1 : (INR (2 * N) / INR (2 * N)) ^ (number strat + 1) = 1) by (unfold Rdiv; rewrite Rinv_r by exact N2; apply pow1).
    intro H. pose proof (K (2 * N)%nat ltac:(lia)) as E. cbv zeta in E. rewrite E1 in E. specialize (E H). now replace (min + 1 * (max - min)) with max in E by ring.
Qed.
Print Assumptions C82_interpolates.

(** A function that is such a quotient is reproduced everywhere. *)
Theorem C82_exact (fcn : R -> R) (min max : R) (N : nat) (strat : strategy) (X : nat -> nat -> R) (f g : nat -> R) :
  min <> max -> inverse_of (2 * N) (solver fcn min max N strat) X -> g 0%nat = 1 ->
  (forall x, 0 <= x <= 1 -> poly g N x <> 0) ->
  (forall s, fcn s = poly f N ((s - min) / (max - min)) / poly g N ((s - min) / (max - min))) -> (0 < N)%nat ->
  forall s, eval (make (solve_pade X fcn min max N strat) N min max) N s = fcn s.
Proof.
  intros D I G0 Gn E HN s.
  set (r := fun i => if (i <=? N)%nat then f i else g (i - N)%nat).
  assert (Rf : forall x, poly r N x = poly f N x).
  { intro x. apply poly_ext. intros i Hi. unfold r. destruct (Nat.leb_spec i N); [reflexivity|lia]. }
  assert (Rg : forall x, poly (den_co r N) N x = poly g N x).
  { intro x. apply poly_ext. intros [|i] Hi; [cbn; congruence|]. cbn [den_co]. unfold r. destruct (Nat.leb_spec (i + (N + 1)) N); [lia|]. f_equal. lia. }
  assert (In : forall k, (k <= 2 * N)%nat -> 0 <= sample N strat k <= 1).
  { intros k Hk. unfold sample. assert (P : 0 < INR (2 * N)) by (apply lt_0_INR; lia).
    assert (Q : 0 <= INR k / INR (2 * N) <= 1).
    { apply le_INR in Hk. pose proof (pos_INR k). split; [apply Rle_mult_inv_pos; lra|].
      apply (Rmult_le_reg_r (INR (2 * N))); [exact P|]. unfold Rdiv. rewrite Rmult_assoc, Rinv_l by lra. lra. }
    split; [apply pow_le; lra|]. rewrite <- (pow1 (number strat + 1)). apply pow_incr. exact Q. }
  assert (S : forall eq, (eq <= 2 * N)%nat -> sum_f_R0 (fun k => solver fcn min max N strat eq k * r k) (2 * N) = rest fcn min max N strat eq).
  { intros eq Hq. rewrite row, Rf, Rg. pose proof (Gn _ (In eq Hq)) as Nz. set (x := sample N strat eq) in *.
    assert (Y : rest fcn min max N strat eq = poly f N x / poly g N x) by (unfold rest; fold x; rewrite E, back by exact D; reflexivity).
    rewrite Y. field. exact Nz. }
  rewrite eval_eq, E. pose proof (unique X fcn min max N strat r I S) as U. set (q := solve_pade X fcn min max N strat) in *.
  set (x := (s - min) / (max - min)).
  assert (A : poly q N x = poly f N x); [|assert (B : poly (den_co q N) N x = poly g N x); [|now rewrite A, B]].
  - rewrite <- Rf. apply poly_ext. intros i Hi. apply U. lia.
  - rewrite <- Rg. apply poly_ext. intros [|i] Hi; [reflexivity|]. cbn [den_co]. apply U. lia.
Qed.
Print Assumptions C82_exact.

(** A function that is a quotient of polynomials of lower degree, such as a constant, makes the matrix singular for every
    order and every choice of the samples: there is nothing for gsl_linalg_LU_invert (src/Pade.cpp:33) to return, and its
    default is to abort the program, although such a function is the easiest to approximate. *)
Theorem C82_degenerate_refuted : exists fcn min max, min < max /\ forall N strat, (0 < N)%nat ->
  (exists f g, g 0%nat = 1 /\ (forall x, poly g N x <> 0) /\ forall s, fcn s = poly f N ((s - min) / (max - min)) / poly g N ((s - min) / (max - min))) /\
  ~ exists X, inverse_of (2 * N) (solver fcn min max N strat) X.
Proof.
  exists (fun _ => 1), 0, 1. split; [lra|]. intros N strat HN. split.
  - set (one := fun i : nat => match i with 0%nat => 1 | _ => 0 end). assert (P : forall x, poly one N x = 1).
    { intro x. unfold poly. clear HN. induction N as [|n IH]; cbn [sum_f_R0]; [cbn; ring|]. rewrite IH. cbn [one]. ring. }
    exists one, one. split; [reflexivity|]. split; [intro x; rewrite P; lra|]. intro s. rewrite !P. lra.
  - intros (X & I). pose proof (proj2 (I 1%nat 1%nat ltac:(lia) ltac:(lia))) as A. pose proof (proj2 (I 1%nat (S N) ltac:(lia) ltac:(lia))) as B.
    unfold delta in *. destruct (Nat.eq_dec 1 1); [|lia]. destruct (Nat.eq_dec 1 (S N)); [lia|].
    rewrite (sum_eq _ (fun k => -1 * (X 1%nat k * solver (fun _ => 1) 0 1 N strat k 1))) in B.
    + rewrite sum_scal_l, A in B. lra.
    + intros k Hk. unfold solver. destruct (Nat.leb_spec (S N) N); [lia|]. destruct (Nat.leb_spec 1 N); [|lia]. replace (S N - N)%nat with 1%nat by lia. unfold rest. ring.
Qed.
Print Assumptions C82_degenerate_refuted.

(** 1 / (1 + s) on [0, 1] at order 1, with the inverse of its matrix. *)
Definition ex_fcn (s : R) : R := 1 / (1 + s).
Definition ex_inverse (i j : nat) : R :=
  match i, j with 0%nat, 0%nat => 1 | 1%nat, 0%nat => 2 | 1%nat, 1%nat => -6 | 1%nat, 2%nat => 4 | 2%nat, 0%nat => 6 | 2%nat, 1%nat => -12 | 2%nat, 2%nat => 6 | _, _ => 0 end.
Example C82_ex : inverse_of (2 * 1) (solver ex_fcn 0 1 1 linear) ex_inverse /\
  (forall x, 0 <= x <= 1 -> poly (fun i => 1) 1 x <> 0) /\
  (forall s, s <> -1 -> ex_fcn s = poly (fun i => match i with 0%nat => 1 | _ => 0 end) 1 ((s - 0) / (1 - 0)) / poly (fun i => 1) 1 ((s - 0) / (1 - 0))) /\
  solve_pade ex_inverse ex_fcn 0 1 1 linear 2 = 1.
Proof.
  assert (S : forall i j, solver ex_fcn 0 1 1 linear i j = if (j <=? 1)%nat then (INR i / 2) ^ j else - (1 / (1 + INR i / 2)) * (INR i / 2) ^ (j - 1)).
  { intros. unfold solver, rest, sample, ex_fcn. cbn [number Nat.add]. replace (INR (2 * 1)) with 2 by (cbn; ring). rewrite pow_1. destruct (j <=? 1)%nat; [reflexivity|].
    f_equal. f_equal. f_equal. f_equal. ring. }
  split; [|split; [|split]].
  - intros i j Hi Hj. assert (i = 0 \/ i = 1 \/ i = 2)%nat as [-> |[-> | ->]] by lia; assert (j = 0 \/ j = 1 \/ j = 2)%nat as [-> |[-> | ->]] by lia;
    cbn [sum_f_R0 Nat.mul Nat.add]; rewrite !S; cbn [Nat.leb ex_inverse Nat.sub pow INR]; unfold delta; cbn; split; lra.
  - intros x Hx. unfold poly. cbn. lra.
  - intros s Hs. unfold ex_fcn, poly. cbn. field. lra.
  - rewrite solve_sum. cbn [sum_f_R0 Nat.mul Nat.add]. unfold rest, sample, ex_fcn, ex_inverse. cbn [number Nat.add Nat.mul]. replace (INR (1 + 1)) with 2 by (cbn; ring). rewrite !pow_1. cbn [INR]. lra.
Qed.
