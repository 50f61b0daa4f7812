From Verif.Common Require Import Prelude.
From Coq Require Import Reals Lra Psatz Field.
From Coquelicot Require Import Hierarchy Complex.
From Verif.Tensor Require Import Model Spec Invert InvertStages PropsInvert.
From Coq Require Import List.
From Verif.Lineshapes Require Import Model Spec.
Local Open Scope C_scope.

(** ** Sums *)
Lemma csum_total n f : csum n f = total n f. Proof. induction n; cbn; congruence. Qed.
Lemma csum_vsum n f : vsum C (RtoC 0) Cplus f n = csum n f. Proof. induction n; cbn; [reflexivity|]. now rewrite IHn. Qed.
Lemma csum_ext n f g : (forall i, (i < n)%nat -> f i = g i) -> csum n f = csum n g.
Proof. induction n; intro H; cbn; [reflexivity|]. rewrite IHn by (intros; apply H; lia). now rewrite H by lia. Qed.
Lemma csum_add n f g : csum n (fun i => f i + g i) = csum n f + csum n g.
Proof. induction n; cbn; [ring|]. rewrite IHn. ring. Qed.
Lemma csum_l n a f : csum n (fun i => a * f i) = a * csum n f.
Proof. induction n; cbn; [ring|]. rewrite IHn. ring. Qed.
Lemma csum_r n a f : csum n (fun i => f i * a) = csum n f * a.
Proof. induction n; cbn; [ring|]. rewrite IHn. ring. Qed.
Lemma csum_opp n f : csum n (fun i => - f i) = - csum n f.
Proof. induction n; cbn; [ring|]. rewrite IHn. ring. Qed.
Lemma csum_0 n f : (forall i, (i < n)%nat -> f i = RtoC 0) -> csum n f = RtoC 0.
Proof. induction n; intro H; cbn; [reflexivity|]. rewrite IHn by (intros; apply H; lia). rewrite H by lia. ring. Qed.
Lemma csum_swap n m f : csum n (fun i => csum m (fun j => f i j)) = csum m (fun j => csum n (fun i => f i j)).
Proof. induction n; cbn; [symmetry; now apply csum_0|]. now rewrite IHn, <- csum_add. Qed.
Lemma csum_delta_l n i f : (i < n)%nat -> csum n (fun k => delta i k * f k) = f i.
Proof.
  induction n; intro H; [lia|]. cbn. unfold delta at 2. destruct (Nat.eqb_spec i n) as [->|N].
  - rewrite csum_0; [ring|]. intros k Hk. unfold delta. destruct (Nat.eqb_spec n k); [lia|]. ring.
  - rewrite IHn by lia. ring.
Qed.
Lemma delta_sym i j : delta i j = delta j i. Proof. unfold delta. now rewrite Nat.eqb_sym. Qed.
Lemma csum_delta_r n i f : (i < n)%nat -> csum n (fun k => f k * delta k i) = f i.
Proof. intro H. rewrite (csum_ext n _ (fun k => delta i k * f k)); [now apply csum_delta_l|]. intros k _. rewrite (delta_sym k i). ring. Qed.
Lemma csum_conj n f : Cconj (csum n f) = csum n (fun i => Cconj (f i)).
Proof. induction n; cbn [csum]; [unfold Cconj, RtoC; cbn; f_equal; ring|]. rewrite <- IHn. unfold Cconj, Cplus. cbn. f_equal; ring. Qed.
Lemma conj_mult a b : Cconj (a * b) = Cconj a * Cconj b. Proof. destruct a, b. unfold Cconj, Cmult. cbn. f_equal; ring. Qed.
Lemma conj_add a b : Cconj (a + b) = Cconj a + Cconj b. Proof. destruct a, b. unfold Cconj, Cplus. cbn. f_equal; ring. Qed.
Lemma conj_R a : Cconj (RtoC a) = RtoC a. Proof. unfold Cconj, RtoC. cbn. f_equal; ring. Qed.
Lemma conj_i : Cconj Ci = - Ci. Proof. unfold Cconj, Ci, Copp. cbn. f_equal; ring. Qed.
Lemma conj_delta i j : Cconj (delta i j) = delta i j. Proof. unfold delta. destruct (i =? j)%nat; apply conj_R. Qed.
Lemma ii : Ci * Ci = - RtoC 1. Proof. unfold Ci, RtoC, Copp, Cmult. cbn. f_equal; ring. Qed.

(** ** No leading block of 1 - i K rho is singular *)
Section Real.
  Local Open Scope R_scope.
  Fixpoint rsum (n : nat) (f : nat -> R) : R := match n with O => 0 | S m => rsum m f + f m end.
  Lemma rsum_ext n f g : (forall i, (i < n)%nat -> f i = g i) -> rsum n f = rsum n g.
  Proof. induction n; intro H; cbn; [reflexivity|]. rewrite IHn by (intros; apply H; lia). now rewrite H by lia. Qed.
  Lemma rsum_add n f g : rsum n (fun i => f i + g i) = rsum n f + rsum n g. Proof. induction n; cbn; [ring|]. rewrite IHn. ring. Qed.
  Lemma rsum_l n a f : rsum n (fun i => a * f i) = a * rsum n f. Proof. induction n; cbn; [ring|]. rewrite IHn. ring. Qed.
  Lemma rsum_0 n : rsum n (fun _ => 0) = 0. Proof. induction n; cbn; [reflexivity|]. rewrite IHn. ring. Qed.
  Lemma rsum_swap n m f : rsum n (fun i => rsum m (fun j => f i j)) = rsum m (fun j => rsum n (fun i => f i j)).
  Proof. induction n; cbn; [now rewrite rsum_0|]. now rewrite IHn, <- rsum_add. Qed.
  Lemma rsum_pos n f : (forall i, (i < n)%nat -> 0 <= f i) -> 0 <= rsum n f.
  Proof. induction n; intro H; cbn; [lra|]. assert (0 <= rsum n f) by (apply IHn; intros; apply H; lia). pose proof (H n ltac:(lia)). lra. Qed.
  Lemma rsum_zero n f : (forall i, (i < n)%nat -> 0 <= f i) -> rsum n f = 0 -> forall i, (i < n)%nat -> f i = 0.
  Proof.
    induction n; intros H E i Hi; [lia|]. cbn in E. assert (0 <= rsum n f) by (apply rsum_pos; intros; apply H; lia). pose proof (H n ltac:(lia)).
    destruct (Nat.eq_dec i n) as [->|N]; [lra|]. apply IHn; [intros; apply H; lia|lra|lia].
  Qed.
  Lemma kernel n (k : nat -> nat -> R) r a b : (forall i j, k i j = k j i) -> (forall i, 0 <= r i) ->
    (forall i, (i < n)%nat -> a i = - rsum n (fun j => k i j * (r j * b j))) -> (forall i, (i < n)%nat -> b i = rsum n (fun j => k i j * (r j * a j))) ->
    forall i, (i < n)%nat -> a i = 0 /\ b i = 0.
  Proof.
    intros Sym Pos A B.
    assert (Z : rsum n (fun i => r i * (a i * a i + b i * b i)) = 0).
    { rewrite (rsum_ext n _ (fun i => - 1 * rsum n (fun j => r i * a i * (k i j * (r j * b j))) + rsum n (fun j => r i * b i * (k i j * (r j * a j))))).
      - rewrite rsum_add, rsum_l. rewrite (rsum_swap n n (fun i j => r i * b i * (k i j * (r j * a j)))).
        rewrite (rsum_ext n (fun j => rsum n (fun i => r i * b i * (k i j * (r j * a j)))) (fun i => rsum n (fun j => r i * a i * (k i j * (r j * b j))))); [ring|].
        intros i _. apply rsum_ext. intros j _. rewrite (Sym j i). ring.
      - intros i Hi. rewrite !rsum_l. pose proof (A i Hi) as A'. pose proof (B i Hi) as B'. rewrite <- B'. 
        replace (rsum n (fun j => k i j * (r j * b j))) with (- a i) by lra. ring. }
    assert (N : forall i, (i < n)%nat -> 0 <= r i * (a i * a i + b i * b i)) by (intros i _; apply Rmult_le_pos; [apply Pos|nra]).
    assert (R : forall i, (i < n)%nat -> r i * a i = 0 /\ r i * b i = 0).
    { intros i Hi. pose proof (rsum_zero n _ N Z i Hi) as E. apply Rmult_integral in E. destruct E as [->|E]; [split; ring|].
      assert (a i = 0) as -> by nra. assert (b i = 0) as -> by nra. split; ring. }
    intros i Hi. split.
    - rewrite A by assumption. rewrite (rsum_ext n _ (fun _ => 0)); [rewrite rsum_0; ring|]. intros j Hj. destruct (R j Hj) as [_ ->]. ring.
    - rewrite B by assumption. rewrite (rsum_ext n _ (fun _ => 0)); [apply rsum_0|]. intros j Hj. destruct (R j Hj) as [-> _]. ring.
  Qed.
End Real.
Lemma csum_pair n f : csum n f = (rsum n (fun i => fst (f i)), rsum n (fun i => snd (f i))).
Proof. induction n; cbn; [reflexivity|]. rewrite IHn. unfold Cplus. cbn. reflexivity. Qed.

Lemma getPropagator_ok n (k : nat -> nat -> R) (r : nat -> R) : (forall i j, k i j = k j i) -> (forall i, (0 <= r i)%R) ->
  propagates n (fun i j => RtoC (k i j)) (fun i => RtoC (r i)) (getPropagator n (fun i j => RtoC (k i j)) (fun i => RtoC (r i))).
Proof.
  intros Sym Pos. destruct n as [|n']; [intros i j Hi; lia|]. remember (S n') as n eqn:En.
  set (T := fun c => ((if Nat.eqb (Nat.div c n) (Nat.modulo c n) then RtoC 1 else RtoC 0) - Ci * RtoC (k (Nat.div c n) (Nat.modulo c n)) * RtoC (r (Nat.modulo c n)))).
  assert (E : forall i j, (j < n)%nat -> T (fresh n i j) = delta i j - Ci * RtoC (k i j) * RtoC (r j)).
  { intros i j Hj. unfold T, fresh. rewrite Nat.div_add_l by lia. rewrite (Nat.div_small j n) by assumption. rewrite Nat.add_0_r.
    rewrite Nat.add_comm, Nat.mod_add by lia. rewrite (Nat.mod_small j n) by assumption. reflexivity. }
  assert (I : inverse_of C (RtoC 0) (RtoC 1) Cplus Cmult n (fun i j => T (fresh n i j)) (fun i j => invert C (RtoC 0) (RtoC 1) Cplus Cmult Cminus Copp Cdiv (fresh n) n T (fresh n i j))).
  { apply C29_leading_blocks with (inv := Cinv); [exact C_field_theory|]. intros m Hm x Hx j Hj.
    assert (Z : fst (x j) = 0%R /\ snd (x j) = 0%R).
    { revert j Hj. apply (kernel m k r (fun i => fst (x i)) (fun i => snd (x i)) Sym Pos).
      - intros i Hi. specialize (Hx i Hi). rewrite csum_vsum in Hx. rewrite (csum_ext m _ (fun j => delta i j * x j + - (Ci * RtoC (k i j) * RtoC (r j) * x j))) in Hx
          by (intros j Hj; rewrite E by lia; ring).
        rewrite csum_add, csum_delta_l, csum_opp, csum_pair in Hx by assumption. apply (f_equal fst) in Hx. cbn in Hx.
        rewrite (rsum_ext m _ (fun j => (- 1 * (k i j * (r j * snd (x j))))%R)) in Hx by (intros j _; cbn; ring). rewrite rsum_l in Hx. lra.
      - intros i Hi. specialize (Hx i Hi). rewrite csum_vsum in Hx. rewrite (csum_ext m _ (fun j => delta i j * x j + - (Ci * RtoC (k i j) * RtoC (r j) * x j))) in Hx
          by (intros j Hj; rewrite E by lia; ring).
        rewrite csum_add, csum_delta_l, csum_opp, csum_pair in Hx by assumption. apply (f_equal snd) in Hx. cbn in Hx.
        rewrite (rsum_ext m (fun i0 => _) (fun j => (k i j * (r j * fst (x j)))%R)) in Hx by (intros j _; cbn; ring). lra. }
    destruct (x j) as [a b]. destruct Z as [Z1 Z2]. cbn in Z1, Z2. subst. reflexivity. }
  intros i j Hi Hj. destruct (I i j Hi Hj) as [I1 I2]. rewrite csum_vsum in I1, I2. rewrite <- !csum_total. split.
  - etransitivity; [|exact I1]. apply csum_ext. intros m Hm. rewrite E by assumption. reflexivity.
  - etransitivity; [|exact I2]. apply csum_ext. intros m Hm. rewrite E by assumption. reflexivity.
Qed.
