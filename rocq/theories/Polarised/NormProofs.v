From Verif.Common Require Import Prelude.
From Coq Require Import Reals Lra Lia.
From Coquelicot Require Import Hierarchy Complex.
From Verif.Polarised Require Import Model Spec Proofs.
Local Open Scope C_scope.

Lemma reached_current s1 s2 n pf s p c norms N : reached s1 s2 n pf s p c norms N ->
  current s1 s2 n pf s norms /\ exists m_rho, densityMatrix s1 p = Ok m_rho /\ N = m_norm s1 s2 n m_rho pf c norms.
Proof.
  induction 1 as [s p c todo norms0 norms N Ht Hp|s p c norms N s' p' c' todo norms' N' HR [IH _] Hn Hw Ha Hp]; unfold prepare in Hp;
    [destruct (densityMatrix s1 p) as [m| | |] eqn:E; try discriminate | destruct (densityMatrix s1 p') as [m| | |] eqn:E; try discriminate];
    cbn [bind] in Hp; injection Hp as <- <-; (split; [|exists m; now split]); apply update_current.
  - intros m1 m2 f i j _ _ _ Hij Hj _ Ti. rewrite Ht in Ti by lia. discriminate.
  - intros m1 m2 f i j H1 H2 Hf Hij Hj Q Ti Tj. rewrite IH by assumption. symmetry. apply integral_same; [exact Hn|exact Hw| |]; apply Ha; [lia|exact Ti|lia|exact Tj].
Qed.
(** A hermitian double sum by its upper half *)
Fixpoint upper (n : nat) (X : nat -> nat -> C) : R := match n with 0%nat => 0%R | S k => (upper k X + sumR k (fun i => 2 * Re (X i k)) + Re (X k k))%R end.
Lemma upper_eq n X : (forall i j, (i < n)%nat -> (j < n)%nat -> Cconj (X i j) = X j i) -> Re (csum n (fun i => csum n (fun j => X i j))) = upper n X.
Proof.
  induction n as [|n IH]; intro H; [reflexivity|]. cbn [csum upper].
  rewrite csum_plus, !re_add, IH by (intros; apply H; lia). rewrite !csum_re.
  replace (sumR n (fun k => Re (X n k))) with (sumR n (fun k => Re (X k n))) by (apply sumR_ext; intros k Hk; rewrite <- (H k n) by lia; reflexivity).
  assert (E : forall m f, sumR m (fun i => 2 * f i)%R = (2 * sumR m f)%R) by (intros m f; induction m as [|m IHm]; cbn; [ring|rewrite IHm; ring]).
  rewrite E. lra.
Qed.
Lemma sumR_shift n f : sumR (S n) f = (f 0%nat + sumR n (fun k => f (S k)))%R.
Proof. induction n as [|n IH]; [cbn; ring|]. change (sumR (S (S n)) f) with (sumR (S n) f + f (S n))%R. rewrite IH. cbn. ring. Qed.
Lemma sumR_plus n f g : sumR n (fun k => f k + g k)%R = (sumR n f + sumR n g)%R.
Proof. induction n as [|n IH]; cbn; [ring|]. rewrite IH. ring. Qed.
Lemma upper_rows n X : upper n X = sumR n (fun i => sumR (n - i) (fun k => (if (i =? i + k)%nat then 1 else 2) * Re (X i (i + k)%nat)))%R.
Proof.
  induction n as [|n IH]; [reflexivity|]. cbn [upper]. rewrite IH. cbn [sumR]. replace (S n - n)%nat with 1%nat by lia. cbn [sumR].
  rewrite Nat.add_0_r, Nat.eqb_refl. rewrite (sumR_ext n (fun i => sumR (S n - i) _) (fun i => sumR (n - i) (fun k => (if (i =? i + k)%nat then 1 else 2) * Re (X i (i + k)%nat)) + 2 * Re (X i n))%R).
  - rewrite sumR_plus. lra.
  - intros i Hi. replace (S n - i)%nat with (S (n - i)) by lia. cbn [sumR]. replace (i + (n - i))%nat with n by lia. destruct (Nat.eqb_spec i n); [lia|reflexivity].
Qed.
Lemma sum_components s1 s2 n p m_rho c amp m : densityMatrix s1 p = Ok m_rho -> rho s1 p = Ok m ->
  Re (csum s1 (fun m1 => csum s1 (fun m2 => csum s2 (fun f => m m2 m1 * (transitionMatrix s2 n c amp m1 f * Cconj (transitionMatrix s2 n c amp m2 f)))))) =
  sumR n (fun i => sumR (n - i) (fun k => component s1 s2 m_rho c amp i (i + k))).
Proof.
  intros Hd Hr. destruct (rho_transposed s1 p m_rho Hd) as (m' & Hr' & Hm). assert (m' = m) by congruence. subst m'.
  set (X := fun i j => csum s1 (fun m1 => csum s1 (fun m2 => csum s2 (fun f => m m2 m1 * (c i * amp i (m1 * s2 + f)%nat) * Cconj (c j * amp j (m2 * s2 + f)%nat))))).
  transitivity (Re (csum n (fun i => csum n (fun j => X i j)))).
  - f_equal. unfold X. rewrite (csum_ext n _ (fun i => csum s1 (fun m1 => csum s1 (fun m2 => csum s2 (fun f => csum n (fun j => m m2 m1 * (c i * amp i (m1 * s2 + f)%nat) * Cconj (c j * amp j (m2 * s2 + f)%nat)))))))
      by (intros; symmetry; apply csum_swap4).
    rewrite <- csum_swap4. apply csum_ext; intros m1 _. apply csum_ext; intros m2 _. apply csum_ext; intros f _. unfold transitionMatrix.
    rewrite csum_conj, <- csum_r, <- csum_l. apply csum_ext. intros i _. rewrite <- csum_l, <- csum_l. apply csum_ext. intros j _. ring.
  - rewrite upper_eq.
    + rewrite upper_rows. apply sumR_ext. intros i Hi. apply sumR_ext. intros k Hk. unfold component. f_equal. f_equal.
      rewrite (fields_sum s1 s2 (fun x f psi y z => m_rho psi * c i * amp i y * Cconj (c (i + k)%nat * amp (i + k)%nat z))). unfold X.
      apply csum_ext; intros m1 H1. apply csum_ext; intros m2 H2. apply csum_ext; intros f Hf. rewrite (proj1 (Hm m1 m2 H1 H2)). ring.
    + intros i j _ _. unfold X. rewrite csum_conj. rewrite csum_swap. apply csum_ext; intros m1 H1. rewrite csum_conj. apply csum_ext; intros m2 H2. rewrite csum_conj. apply csum_ext; intros f Hf.
      rewrite !conj_mul, !conj_conj. first [rewrite (proj2 (Hm m1 m2 H1 H2)) | rewrite (proj2 (Hm m2 m1 H2 H1))]. ring.
Qed.
