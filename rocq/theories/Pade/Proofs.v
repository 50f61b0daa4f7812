From Verif.Common Require Import Prelude.
From Coq Require Import Reals Lra Lia.
From Verif.Pade Require Import Model Spec.
Local Open Scope R_scope.

Lemma loop_sum_eq n f : loop_sum (S n) f = sum_f_R0 f n.
Proof. induction n as [|n IH]; [cbn; ring|]. change (loop_sum (S (S n)) f) with (loop_sum (S n) f + f (S n)). now rewrite IH. Qed.
Lemma turns_eq p x n : turns p x n = (loop_sum n (fun i => co_f p i * x ^ i), 1 + loop_sum n (fun i => co_g p i * x ^ S i), x ^ n).
Proof.
  induction n as [|n IH]; [cbn; f_equal; f_equal; ring|]. cbn [turns]. rewrite IH. cbn [loop_sum]. f_equal; [f_equal|].
  - rewrite <- (tech_pow_Rmult x n). ring.
  - cbn. ring.
Qed.
(** The coefficients of the denominator: 1 and those after the first N + 1. *)
Definition den_co (r : nat -> R) (N i : nat) : R := match i with 0%nat => 1 | S k => r (k + (N + 1))%nat end.
Lemma den_loop r N x n : 1 + loop_sum n (fun i => r (i + (N + 1))%nat * x ^ S i) = poly (den_co r N) n x.
Proof.
  unfold poly. induction n as [|n IH]; [cbn; ring|]. cbn [loop_sum sum_f_R0]. rewrite <- IH. cbn [den_co]. ring.
Qed.
Lemma eval_eq r N min max s : eval (make r N min max) N s = poly r N ((s - min) / (max - min)) / poly (den_co r N) N ((s - min) / (max - min)).
Proof.
  unfold eval. cbn [make lo range]. replace ((s - min) * (1 / (max - min))) with ((s - min) / (max - min)) by (unfold Rdiv; ring).
  rewrite turns_eq. cbn [make co_f co_g]. rewrite den_loop. f_equal.
  change (loop_sum (S N) (fun i => r i * ((s - min) / (max - min)) ^ i) = poly r N ((s - min) / (max - min))). apply loop_sum_eq.
Qed.
(** The two halves of a row of the matrix *)
Lemma sum_split (f : nat -> R) N : sum_f_R0 f (2 * N) = sum_f_R0 f N + loop_sum N (fun i => f (S i + N)%nat).
Proof.
  replace (2 * N)%nat with (N + N)%nat by lia. generalize N at 2 4. intro n. induction n as [|n IH]; [cbn; rewrite Nat.add_0_r; ring|].
  rewrite Nat.add_succ_r. cbn [sum_f_R0 loop_sum]. rewrite IH. replace (S (N + n)) with (S n + N)%nat by lia. ring.
Qed.
Lemma loop_ext n f g : (forall i, (i < n)%nat -> f i = g i) -> loop_sum n f = loop_sum n g.
Proof. induction n as [|n IH]; intro H; [reflexivity|]. cbn. rewrite IH by (intros; apply H; lia). now rewrite H by lia. Qed.
Lemma loop_scal n f x : loop_sum n (fun i => x * f i) = x * loop_sum n f.
Proof. induction n as [|n IH]; cbn; [ring|]. rewrite IH. ring. Qed.
Lemma row fcn min max N strat r eq :
  sum_f_R0 (fun k => solver fcn min max N strat eq k * r k) (2 * N) =
  poly r N (sample N strat eq) - rest fcn min max N strat eq * (poly (den_co r N) N (sample N strat eq) - 1).
Proof.
  rewrite sum_split. unfold poly at 1. set (s := sample N strat eq). set (y := rest fcn min max N strat eq). rewrite <- (den_loop r N s N).
  replace (sum_f_R0 (fun k => solver fcn min max N strat eq k * r k) N) with (sum_f_R0 (fun i => r i * s ^ i) N).
  - rewrite (loop_ext N _ (fun i => - y * (r (i + (N + 1))%nat * s ^ S i))).
    + rewrite loop_scal. ring.
    + intros i Hi. unfold solver. destruct (Nat.leb_spec (S i + N) N); [lia|]. fold s y. replace (S i + N - N)%nat with (S i) by lia.
      replace (S i + N)%nat with (i + (N + 1))%nat by lia. ring.
  - apply sum_eq. intros i Hi. unfold solver. destruct (Nat.leb_spec i N); [|lia]. fold s. ring.
Qed.
(** Matrices *)
Lemma sum_swap (f : nat -> nat -> R) n m : sum_f_R0 (fun i => sum_f_R0 (fun j => f i j) m) n = sum_f_R0 (fun j => sum_f_R0 (fun i => f i j) n) m.
Proof.
  induction n as [|n IH]; [reflexivity|]. cbn [sum_f_R0]. rewrite IH, <- sum_plus. apply sum_eq. intros. reflexivity.
Qed.
Lemma sum_delta n i (y : nat -> R) : (i <= n)%nat -> sum_f_R0 (fun j => delta i j * y j) n = y i.
Proof.
  induction n as [|n IH]; intro H.
  - assert (i = 0)%nat by lia. subst. cbn. unfold delta. destruct (Nat.eq_dec 0 0); [ring|lia].
  - cbn [sum_f_R0]. destruct (Nat.eq_dec i (S n)) as [->|Ne].
    + rewrite (sum_eq _ (fun _ => 0)); [rewrite sum_cte|].
      * unfold delta. destruct (Nat.eq_dec (S n) (S n)); [ring|lia].
      * intros k Hk. unfold delta. destruct (Nat.eq_dec (S n) k); [lia|ring].
    + rewrite IH by lia. unfold delta. destruct (Nat.eq_dec i (S n)); [lia|ring].
Qed.
Lemma sum_scal_l x f n : sum_f_R0 (fun i => x * f i) n = x * sum_f_R0 f n.
Proof. induction n as [|n IH]; cbn; [reflexivity|]. rewrite IH. ring. Qed.
Lemma mat_vec (A B : nat -> nat -> R) (y : nat -> R) n i : sum_f_R0 (fun k => A i k * sum_f_R0 (fun j => B k j * y j) n) n = sum_f_R0 (fun j => sum_f_R0 (fun k => A i k * B k j) n * y j) n.
Proof.
  rewrite (sum_eq _ (fun k => sum_f_R0 (fun j => A i k * B k j * y j) n)).
  - rewrite sum_swap. apply sum_eq. intros j _. rewrite <- (Rmult_comm (y j)), <- sum_scal_l. apply sum_eq. intros. ring.
  - intros k _. rewrite <- sum_scal_l. apply sum_eq. intros. ring.
Qed.
Lemma solve_sum X fcn min max N strat i : solve_pade X fcn min max N strat i = sum_f_R0 (fun j => X i j * rest fcn min max N strat j) (2 * N).
Proof. unfold solve_pade. rewrite Nat.add_1_r. apply loop_sum_eq. Qed.
Lemma solves X fcn min max N strat eq : inverse_of (2 * N) (solver fcn min max N strat) X -> (eq <= 2 * N)%nat ->
  sum_f_R0 (fun k => solver fcn min max N strat eq k * solve_pade X fcn min max N strat k) (2 * N) = rest fcn min max N strat eq.
Proof.
  intros I H. rewrite (sum_eq _ (fun k => solver fcn min max N strat eq k * sum_f_R0 (fun j => X k j * rest fcn min max N strat j) (2 * N))) by (intros; now rewrite solve_sum).
  rewrite mat_vec, (sum_eq _ (fun j => delta eq j * rest fcn min max N strat j)); [now apply sum_delta|].
  intros j Hj. now rewrite (proj1 (I eq j H Hj)).
Qed.
Lemma unique X fcn min max N strat r : inverse_of (2 * N) (solver fcn min max N strat) X ->
  (forall eq, (eq <= 2 * N)%nat -> sum_f_R0 (fun k => solver fcn min max N strat eq k * r k) (2 * N) = rest fcn min max N strat eq) ->
  forall i, (i <= 2 * N)%nat -> solve_pade X fcn min max N strat i = r i.
Proof.
  intros I E i Hi. rewrite solve_sum, (sum_eq _ (fun j => X i j * sum_f_R0 (fun k => solver fcn min max N strat j k * r k) (2 * N))) by (intros; now rewrite E).
  rewrite mat_vec, (sum_eq _ (fun j => delta i j * r j)); [now apply sum_delta|]. intros j Hj. now rewrite (proj2 (I i j Hi Hj)).
Qed.
Lemma poly_ext c d n x : (forall i, (i <= n)%nat -> c i = d i) -> poly c n x = poly d n x.
Proof. intro H. apply sum_eq. intros. now rewrite H. Qed.
Lemma back (s min max : R) : min <> max -> (s * (max - min) + min - min) / (max - min) = s.
Proof. intro H. field. lra. Qed.
