(** C83: normalisation and components of the polarised sum. *)
From Verif.Common Require Import Prelude.
From Coq Require Import Reals Lra Lia.
From Coquelicot Require Import Hierarchy Complex.
From Verif.Polarised Require Import Model Spec Proofs NormProofs.
Local Open Scope C_scope.

(** Without the parameter polFrac. Missing: the case with it, for a decaying particle with spin (C83_polfrac_refuted). *)
Theorem C83_norm_partial (s1 s2 n : nat) (s : sample) (p : list R) (c : nat -> C) norms N :
  reached s1 s2 n [] s p c norms N ->
  exists P, (forall e, probExpression s1 s2 p [] (T_at s2 n c s e) = Ok (P e)) /\ N = average s P.
Proof.
  intro H. destruct (reached_current _ _ _ _ _ _ _ _ _ H) as (Cur & m_rho & Hd & ->). destruct (rho_transposed _ _ _ Hd) as (m & Hr & Hm).
  eexists. split; [intro e; exact (prob_full s1 s2 p m (T_at s2 n c s e) Hr)|].
  apply (norm_average s1 s2 n [] m_rho (fun f a b => m b a)); [| |intros; discriminate|exact Cur].
  - intros f a b Ha Hb _. now apply Hm.
  - intros f a b Ha Hb _. cbn [coefficient]. now apply Hm.
Qed.
Print Assumptions C83_norm_partial.

(** With polFrac, for a decaying particle without spin and products with two states of polarisation. *)
Theorem C83_polfrac_partial (n : nat) (q : R) (s : sample) (p : list R) (c : nat -> C) norms N :
  reached 1 2 n (q :: nil) s p c norms N ->
  exists P, (forall e, probExpression 1 2 p (q :: nil) (T_at 2 n c s e) = Ok (P e)) /\
    (forall e, P e = q * Cmod (T_at 2 n c s e 0 0) ^ 2 + (1 - q) * Cmod (T_at 2 n c s e 0 1) ^ 2)%R /\ N = average s P.
Proof.
  intro H. destruct (reached_current _ _ _ _ _ _ _ _ _ H) as (Cur & m_rho & Hd & ->). cbn in Hd. injection Hd as <-.
  set (D := fun f (a b : nat) => RtoC (if (f =? 0)%nat then q else 1 - q)).
  exists (fun e => Re (csum 1 (fun m1 => csum 1 (fun m2 => csum 2 (fun f => D f m1 m2 * (T_at 2 n c s e m1 f * Cconj (T_at 2 n c s e m2 f))))))).
  split; [|split].
  - intro e. unfold probExpression. cbn. f_equal. set (T := T_at 2 n c s e). destruct (T 0%nat 0%nat) as [x y], (T 0%nat 1%nat) as [z w]. cbn. ring.
  - intro e. set (T := T_at 2 n c s e). rewrite !cmod2. cbn. destruct (T 0%nat 0%nat) as [x y], (T 0%nat 1%nat) as [z w]. cbn. ring.
  - apply (norm_average 1 2 n (q :: nil) _ D); [| | |exact Cur].
    + intros. apply conj_r.
    + intros f a b Ha Hb Hf. assert (a = 0)%nat by lia. assert (b = 0)%nat by lia. subst. unfold D. destruct (lt2 f Hf) as [-> | ->]; cbn; apply injective_projections; cbn; ring.
    + intros f a b Ha Hb Hf Q. assert (a = 0)%nat by lia. assert (b = 0)%nat by lia. subst. discriminate.
Qed.
Print Assumptions C83_polfrac_partial.

(** For a decaying particle of spin 1/2 and with polFrac, the normalisation leaves out all but the first state of the decaying
    particle (src/PolarisedSum.cpp:279): the density is not normalised. *)
Theorem C83_polfrac_refuted : exists s p q c norms N P,
  reached 2 2 1 (q :: nil) s p c norms N /\ (forall e, probExpression 2 2 p (q :: nil) (T_at 2 1 c s e) = Ok (P e)) /\ N <> average s P.
Proof.
  set (s := Sample 1 (fun _ => 1%R) (fun _ _ _ => RtoC 1)).
  set (p := (0 :: 0 :: 0 :: nil)%R). set (c := fun _ : nat => RtoC 1). set (q := (/ 2)%R).
  destruct (prepare 2 2 1 p (q :: nil) c (fun _ => true) s (fun _ _ _ => RtoC 0)) as [[norms N]| | |] eqn:E; try (cbn in E; discriminate).
  exists s, p, q, c, norms, N, (fun _ => 2%R). split; [|split].
  - apply (first _ _ _ _ _ _ _ (fun _ => true) (fun _ _ _ => RtoC 0)); [reflexivity|exact E].
  - intro e. unfold probExpression, T_at, transitionMatrix, s, c, p, q. cbn. f_equal. field.
  - unfold prepare in E. cbn [densityMatrix bind p] in E. injection E as _ EN. rewrite <- EN. unfold average, s. cbn. unfold Rdiv. rewrite !Rplus_0_l, ?Rmult_0_l, ?Rmult_1_l, ?Rmult_1_r, ?Rmult_0_r. intro F.
    assert (I1 : (/ (1 * 1 + 0 * 0) = 1)%R) by (rewrite Rmult_1_l, Rmult_0_l, Rplus_0_r; apply Rinv_1). field_simplify in F. lra.
Qed.
Print Assumptions C83_polfrac_refuted.

(** The components of the pairs of elements add up to the density, when there is no polFrac. *)
Theorem C83_components_partial (s1 s2 n : nat) (p : list R) m_rho (c : nat -> C) (amp : nat -> nat -> C) :
  densityMatrix s1 p = Ok m_rho ->
  probExpression s1 s2 p [] (transitionMatrix s2 n c amp) = Ok (sumR n (fun i => sumR (n - i) (fun k => component s1 s2 m_rho c amp i (i + k)))).
Proof.
  intro Hd. destruct (rho_transposed _ _ _ Hd) as (m & Hr & _). rewrite (prob_full _ _ _ m _ Hr). f_equal. now apply (sum_components s1 s2 n p).
Qed.
Print Assumptions C83_components_partial.

(** With polFrac they do not: they ignore it. *)
Theorem C83_components_refuted : exists n q p m_rho c amp P, densityMatrix 1 p = Ok m_rho /\
  probExpression 1 2 p (q :: nil) (transitionMatrix 2 n c amp) = Ok P /\ sumR n (fun i => sumR (n - i) (fun k => component 1 2 m_rho c amp i (i + k))) <> P.
Proof.
  exists 1%nat, 1%R, [], (fun i => delta (i / 1) (i mod 1)), (fun _ => RtoC 1), (fun _ x => match x with 1%nat => RtoC 1 | _ => RtoC 0 end), 0%R.
  split; [reflexivity|]. split; [unfold probExpression, transitionMatrix; cbn; f_equal; ring|]. unfold component. cbn. lra.
Qed.
Print Assumptions C83_components_refuted.

(** Two elements for a particle of spin 1/2 with polarisation: a first call, and a second with another amplitude and polarisation. *)
Example C83_ex : exists s s' p p' c norms norms' N N', p <> p' /\ amps s 0 1 0 <> amps s' 0 1 0 /\
  reached 2 1 2 [] s p c norms N /\ reached 2 1 2 [] s' p' c norms' N'.
Proof.
  set (s := Sample 2 (fun e => 1 + INR e)%R (fun e k x => RtoC (INR (e + k + x)))).
  set (s' := Sample 2 (fun e => 1 + INR e)%R (fun e k x => if (k =? 1)%nat then RtoC (3 + INR (e + x)) else RtoC (INR (e + k + x)))).
  set (p := (0 :: 0 :: 1 :: nil)%R). set (p' := (1 :: 0 :: 0 :: nil)%R). set (c := fun _ : nat => RtoC 1).
  destruct (prepare 2 1 2 p [] c (fun _ => true) s (fun _ _ _ => RtoC 0)) as [[norms N]| | |] eqn:E; try (cbn in E; discriminate).
  destruct (prepare 2 1 2 p' [] c (fun k => (k =? 1)%nat) s' norms) as [[norms' N']| | |] eqn:E'; try (cbn in E'; discriminate).
  exists s, s', p, p', c, norms, norms', N, N'. split; [intro H; injection H; lra|]. split.
  - cbn. intro H. apply RtoC_inj in H. lra.
  - assert (F : reached 2 1 2 [] s p c norms N) by (apply (first _ _ _ _ _ _ _ (fun _ => true) (fun _ _ _ => RtoC 0)); [reflexivity|exact E]).
    split; [exact F|]. apply (later _ _ _ _ s p c norms N _ _ _ (fun k => (k =? 1)%nat)); [exact F|reflexivity|reflexivity| |exact E'].
    intros i _ Hi e x. cbn. now rewrite Hi.
Qed.
