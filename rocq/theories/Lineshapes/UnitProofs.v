From Verif.Common Require Import Prelude.
From Coq Require Import Reals Lra Psatz Field.
From Coquelicot Require Import Hierarchy Complex.
From Coq Require Import List.
From Verif.Lineshapes Require Import Model Spec KProofs.
Local Open Scope C_scope.

(** ** From the propagator to the amplitude *)
Section Amplitude.
  Variables (n : nat) (K : nat -> nat -> C) (rho : nat -> C) (F : nat -> nat -> C).
  Hypothesis H : propagates n K rho F.
  Notation T := (fun i j => scatt n K F j i).
  Lemma T_sum i j : scatt n K F j i = csum n (fun x => F i x * K x j).
  Proof. unfold scatt. apply csum_ext. intros x _. ring. Qed.
  Lemma F_T i j : (i < n)%nat -> (j < n)%nat -> F i j = delta i j + Ci * scatt n K F j i * rho j.
  Proof.
    intros Hi Hj. destruct (H i j Hi Hj) as [_ E]. rewrite <- csum_total in E.
    rewrite (csum_ext n _ (fun k => F i k * delta k j + - Ci * rho j * (F i k * K k j))) in E by (intros; ring).
    rewrite csum_add, csum_delta_r, csum_l, <- T_sum in E by assumption. rewrite <- E. ring.
  Qed.
  Lemma F_K i j : (i < n)%nat -> (j < n)%nat -> F i j = delta i j + Ci * csum n (fun k => K i k * rho k * F k j).
  Proof.
    intros Hi Hj. destruct (H i j Hi Hj) as [E _]. rewrite <- csum_total in E.
    rewrite (csum_ext n _ (fun k => delta i k * F k j + - Ci * (K i k * rho k * F k j))) in E by (intros; ring).
    rewrite csum_add, csum_delta_l, csum_l in E by assumption. rewrite <- E. ring.
  Qed.
  Lemma T_right i j : (i < n)%nat -> (j < n)%nat -> scatt n K F j i = K i j + Ci * csum n (fun k => scatt n K F k i * rho k * K k j).
  Proof.
    intros Hi Hj. rewrite T_sum. rewrite (csum_ext n _ (fun k => delta i k * K k j + Ci * (scatt n K F k i * rho k * K k j))).
    - now rewrite csum_add, csum_delta_l, csum_l.
    - intros k Hk. rewrite F_T by assumption. ring.
  Qed.
  Lemma T_left i j : (i < n)%nat -> (j < n)%nat -> scatt n K F j i = K i j + Ci * csum n (fun k => K i k * rho k * scatt n K F j k).
  Proof.
    intros Hi Hj. rewrite T_sum.
    rewrite (csum_ext n _ (fun x => delta i x * K x j + Ci * csum n (fun k => K i k * rho k * (F k x * K x j)))).
    - rewrite csum_add, csum_delta_l, csum_l by assumption. f_equal. f_equal. rewrite csum_swap. apply csum_ext. intros k Hk. rewrite T_sum, csum_l. ring.
    - intros x Hx. rewrite F_K by assumption. rewrite Cmult_plus_distr_r. f_equal. rewrite <- Cmult_assoc, <- csum_r. f_equal. apply csum_ext. intros. ring.
  Qed.
  (** the solution of (1 - i K rho) U = V is F V *)
  Lemma solve U V : (forall i, (i < n)%nat -> U i = V i + Ci * csum n (fun k => K i k * rho k * U k)) ->
    forall i, (i < n)%nat -> U i = csum n (fun k => F i k * V k).
  Proof.
    intros E i Hi.
    assert (E' : csum n (fun k => F i k * U k) = csum n (fun k => F i k * V k) + Ci * csum n (fun x => (csum n (fun k => F i k * K k x)) * rho x * U x)).
    { rewrite (csum_ext n _ (fun k => F i k * V k + Ci * csum n (fun x => F i k * K k x * rho x * U x))).
      - rewrite csum_add, csum_l. f_equal. f_equal. rewrite csum_swap. apply csum_ext. intros x Hx. rewrite <- !csum_r. reflexivity.
      - intros k Hk. rewrite (E k Hk) at 1. rewrite Cmult_plus_distr_l. f_equal.
        rewrite Cmult_assoc, (Cmult_comm (F i k) Ci), <- Cmult_assoc, <- csum_l. f_equal. apply csum_ext. intros. ring. }
    rewrite (csum_ext n (fun k => F i k * U k) (fun k => delta i k * U k + Ci * (scatt n K F k i * rho k * U k))) in E'.
    - rewrite csum_add, csum_delta_l, csum_l in E' by assumption.
      rewrite (csum_ext n (fun x => csum n _ * rho x * U x) (fun k => scatt n K F k i * rho k * U k)) in E' by (intros x _; now rewrite T_sum).
      set (a := Ci * csum n _) in E'. clearbody a. replace (U i) with (U i + a - a) by ring. rewrite E'. ring.
    - intros k Hk. rewrite F_T by assumption. ring.
  Qed.
  Lemma T_sym : (forall i j, K i j = K j i) -> forall i j, (i < n)%nat -> (j < n)%nat -> scatt n K F j i = scatt n K F i j.
  Proof.
    intros Sym i j Hi Hj. symmetry.
    rewrite (solve (fun k => scatt n K F k j) (fun k => K k j)); [now rewrite T_sum| |assumption].
    intros k Hk. rewrite T_right by assumption. rewrite (Sym j k). f_equal. f_equal. apply csum_ext. intros x _. rewrite (Sym x k). ring.
  Qed.
End Amplitude.

Section Unit.
  Variables (n : nat) (k : nat -> nat -> R) (r : nat -> R) (F : nat -> nat -> C).
  Hypothesis Sym : forall i j, k i j = k j i.
  Hypothesis Pos : forall i, (i < n)%nat -> (0 <= r i)%R.
  Notation K := (fun i j => RtoC (k i j)).
  Notation rho := (fun i => RtoC (r i)).
  Hypothesis H : propagates n K rho F.
  Notation T i j := (scatt n K F j i).
  Lemma KSym : forall i j : nat, K i j = K j i. Proof. intros i j. cbn beta. now rewrite (Sym i j). Qed.
  Lemma T_disc i j : (i < n)%nat -> (j < n)%nat -> T i j - Cconj (T i j) = RtoC 2 * Ci * csum n (fun x => T i x * RtoC (r x) * Cconj (T x j)).
  Proof.
    intros Hi Hj.
    assert (Kbar : forall y, (y < n)%nat -> RtoC (k y j) = Cconj (T y j) + Ci * csum n (fun x => RtoC (k y x) * RtoC (r x) * Cconj (T x j))).
    { intros y Hy. rewrite (T_left n K rho F H y j Hy Hj) at 1. rewrite conj_add, conj_mult, conj_i, conj_R, csum_conj.
      rewrite (csum_ext n (fun i0 => Cconj (RtoC (k y i0) * _ * _)) (fun x => RtoC (k y x) * RtoC (r x) * Cconj (T x j))); [ring|].
      intros x _. now rewrite !conj_mult, !conj_R. }
    pose proof (T_right n K rho F H i j Hi Hj) as A. cbn beta in A.
    rewrite (csum_ext n _ (fun y => T i y * RtoC (r y) * Cconj (T y j) + Ci * csum n (fun x => T i y * RtoC (r y) * RtoC (k y x) * RtoC (r x) * Cconj (T x j)))) in A.
    2: { intros y Hy. rewrite (Kbar y Hy) at 1. rewrite Cmult_plus_distr_l. f_equal.
         rewrite Cmult_assoc, (Cmult_comm _ Ci), <- Cmult_assoc, <- csum_l. f_equal. apply csum_ext. intros. ring. }
    rewrite csum_add, csum_l, csum_swap in A. rewrite (Kbar i Hi) in A.
    assert (B : csum n (fun x => T i x * RtoC (r x) * Cconj (T x j)) =
                csum n (fun x => RtoC (k i x) * RtoC (r x) * Cconj (T x j)) + Ci * csum n (fun x => csum n (fun y => T i y * RtoC (r y) * RtoC (k y x) * RtoC (r x) * Cconj (T x j)))).
    { rewrite <- csum_l, <- csum_add. apply csum_ext. intros x Hx. rewrite (T_right n K rho F H i x Hi Hx) at 1.
      rewrite !Cmult_plus_distr_r. f_equal. rewrite <- !Cmult_assoc. f_equal. rewrite <- csum_r. apply csum_ext. intros. cbn beta. ring. }
    set (X := csum n (fun x => T i x * _ * _)) in *. set (Y := csum n (fun x => RtoC (k i x) * _ * _)) in *. set (Z := csum n (fun j0 => csum n _)) in *.
    change (csum n (fun x => csum n (fun y => T i y * RtoC (r y) * RtoC (k y x) * RtoC (r x) * Cconj (T x j)))) with Z in B.
    clearbody X Y Z. set (t := Cconj (T i j)) in *. clearbody t. rewrite A. transitivity (Ci * (Y + Ci * Z) + Ci * X); [ring|]. rewrite <- B.
    replace (RtoC 2) with (RtoC 1 + RtoC 1) by (rewrite <- RtoC_plus; f_equal; ring). ring.
  Qed.
  Lemma S_unitary : unitary n (Smatrix r (fun i j => T i j)).
  Proof.
    intros i j Hi Hj. rewrite <- csum_total. unfold Smatrix.
    rewrite (csum_ext n _ (fun x => delta i x * delta j x + (delta i x * (- (RtoC 2 * Ci * RtoC (sqrt (r j)) * Cconj (T j x) * RtoC (sqrt (r x)))) +
       (delta j x * (RtoC 2 * Ci * RtoC (sqrt (r i)) * T i x * RtoC (sqrt (r x))) + RtoC 4 * RtoC (sqrt (r i)) * RtoC (sqrt (r j)) * (T i x * RtoC (r x) * Cconj (T x j)))))).
    - rewrite !csum_add, csum_delta_l, csum_delta_l, csum_delta_l by assumption. rewrite csum_l.
      assert (D := T_disc i j Hi Hj). rewrite <- (T_sym n K rho F H KSym j i Hj Hi).
      set (X := csum n _) in *. clearbody X. rewrite (delta_sym j i).
      replace (RtoC 4 * RtoC (sqrt (r i)) * RtoC (sqrt (r j)) * X) with (- (RtoC 2 * Ci * RtoC (sqrt (r i)) * RtoC (sqrt (r j)) * (RtoC 2 * Ci * X))).
      + rewrite <- D. rewrite (T_sym n K rho F H KSym j i Hj Hi). ring.
      + transitivity (- (RtoC 2 * RtoC 2 * (Ci * Ci) * RtoC (sqrt (r i)) * RtoC (sqrt (r j)) * X)); [ring|]. rewrite ii.
        replace (RtoC 4) with (RtoC 2 * RtoC 2) by (rewrite <- RtoC_mult; f_equal; ring). ring.
    - intros x Hx. rewrite conj_add, !conj_mult, conj_i, !conj_R, conj_delta. rewrite (T_sym n K rho F H KSym x j Hx Hj).
      replace (RtoC (r x)) with (RtoC (sqrt (r x)) * RtoC (sqrt (r x))) by (rewrite <- RtoC_mult; f_equal; apply sqrt_sqrt; now apply Pos).
      replace (RtoC 4) with (RtoC 2 * RtoC 2) by (rewrite <- RtoC_mult; f_equal; ring).
      set (q := Cconj _). set (t := scatt n K F x i). clearbody q t. 
      transitivity (delta i x * delta j x + (delta i x * (- (RtoC 2 * Ci * RtoC (sqrt (r j)) * q * RtoC (sqrt (r x)))) +
         (delta j x * (RtoC 2 * Ci * RtoC (sqrt (r i)) * t * RtoC (sqrt (r x))) - RtoC 2 * RtoC 2 * (Ci * Ci) * RtoC (sqrt (r i)) * RtoC (sqrt (r j)) * (t * (RtoC (sqrt (r x)) * RtoC (sqrt (r x))) * q)))); [ring|].
      rewrite ii. ring.
  Qed.
End Unit.

(** ** One pole *)
Lemma one_pole n g m2 s rho F : propagates n (constructKMatrix s (Pole m2 g :: nil)) rho F -> m2 <> RtoC s ->
  m2 - RtoC s - Ci * csum n (fun k => RtoC (g k * g k) * rho k) <> RtoC 0 ->
  forall f, (f < n)%nat -> pole_term n F (Pole m2 g) s f = RtoC (g f) / (m2 - RtoC s - Ci * csum n (fun k => RtoC (g k * g k) * rho k)).
Proof.
  intros H Ns Nd f Hf. unfold pole_term. cbn [couplings pole_s].
  assert (D0 : m2 - RtoC s <> RtoC 0) by (intro E; apply Ns; replace m2 with (m2 - RtoC s + RtoC s) by ring; rewrite E; ring).
  set (D := m2 - RtoC s) in *. set (S := csum n (fun k => RtoC (g k * g k) * rho k)) in *.
  rewrite <- (solve n _ rho F H (fun i => RtoC (g i) * D / (D - Ci * S)) (fun i => RtoC (g i))); [|  |assumption].
  - field. split; assumption.
  - intros i Hi. rewrite (csum_ext n _ (fun k => RtoC (g i) / (D - Ci * S) * (RtoC (g k * g k) * rho k))).
    + rewrite csum_l. change (csum n _) with S. field. assumption.
    + intros k Hk. unfold constructKMatrix. cbn [fold_left couplings pole_s]. fold D. rewrite !RtoC_mult. field. split; assumption.
Qed.
