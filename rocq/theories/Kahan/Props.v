(** C49: compensated summation. *)
From Coq Require Import Reals List ZArith Lra Lia.
From Flocq Require Import Core.
From Verif.Phsp Require Import Model Proofs.
From Verif.Kahan Require Import Model Spec Proofs.
Import ListNotations.
Local Open Scope R_scope.

(** With exact arithmetic the three sums return the sum. *)
Theorem C49_exact (xs : list R) :
  value (fun x => x) (adds (fun x => x) empty xs) = exact xs
  /\ (forall a x, cor a = 0 -> value (fun x => x) (plus (fun x => x) a x) = sum a + x)
  /\ klein (fun x => x) xs = exact xs.
Proof.
  repeat split.
  - destruct (adds_exact xs empty eq_refl) as [A B]. unfold value. rewrite A, B. cbn [sum empty]. ring.
  - intros a x C. unfold value, plus. cbn [sum cor]. rewrite C. ring.
  - unfold klein, klein_loop.
    assert (H : forall xs a, snd (fst a) = 0 -> snd a = 0 -> fold_left (klein_step (fun x => x)) xs a = (fst (fst a) + exact xs, 0, 0)).
    { clear xs. induction xs as [|x xs IH]; intros [[s cs] ccs] H1 H2; cbn [fold_left fst snd] in *; subst.
      - unfold exact. cbn [fold_right]. rewrite Rplus_0_r. reflexivity.
      - assert (E : klein_step (fun x => x) (s, 0, 0) x = (s + x, 0, 0)).
        { unfold klein_step, two. f_equal; [f_equal|]; repeat destruct (rle _ _); ring. }
        rewrite E, IH by reflexivity. cbn [fst]. change (exact (x :: xs)) with (x + exact xs). rewrite Rplus_assoc. reflexivity. }
    rewrite H by reflexivity. cbn [fst]. ring.
Qed.
Print Assumptions C49_exact.

(** In binary floating point: nothing is lost. What an addition loses is a number and is computed without error, so the running sum and the lost parts
    add up to the exact sum; the correction is the rounded sum of the lost parts, each at most half a unit in the last place of the partial sum. *)
Theorem C49_lost (emin prec : Z) (choice : Z -> bool) (a : acc) (x : R) :
  (1 < prec)%Z -> (emin <= 0)%Z -> symmetric choice -> number emin prec (sum a) -> number emin prec x ->
  exists e, number emin prec e
    /\ sum (add (nearest emin prec choice) a x) + e = sum a + x
    /\ sum (add (nearest emin prec choice) a x) = nearest emin prec choice (sum a + x)
    /\ cor (add (nearest emin prec choice) a x) = nearest emin prec choice (cor a + e)
    /\ Rabs e <= half_ulp prec * Rabs (sum a + x).
Proof.
  intros P E S Na Nx. exists (lost (nearest emin prec choice) a x). split; [apply lost_num; auto|].
  split; [exact (lost_exact emin prec choice P E S a x Na Nx)|]. split; [reflexivity|]. split; [reflexivity|].
  apply (lost_small emin prec choice P E S a x Na Nx).
Qed.
Print Assumptions C49_lost.

Theorem C49_total (emin prec : Z) (choice : Z -> bool) (xs : list R) :
  (1 < prec)%Z -> (emin <= 0)%Z -> symmetric choice -> Forall (number emin prec) xs ->
  exists es, List.length es = List.length xs /\ Forall (number emin prec) es
    /\ sum (adds (nearest emin prec choice) empty xs) + exact es = exact xs
    /\ cor (adds (nearest emin prec choice) empty xs) = fold_left (fun c e => nearest emin prec choice (c + e)) es 0
    /\ Rabs (value (nearest emin prec choice) (adds (nearest emin prec choice) empty xs) - exact xs)
       <= half_ulp prec * Rabs (exact xs) + (1 + half_ulp prec) * ((1 + half_ulp prec) ^ List.length xs - 1) * exact (map Rabs es).
Proof.
  intros P E S N. exists (losses emin prec choice empty xs). split; [apply losses_length|]. split; [apply losses_num; auto|].
  destruct (adds_lost emin prec choice P E S xs empty (num_0 emin prec) N) as [_ A]. cbn [sum empty] in A. rewrite Rplus_0_l in A.
  split; [exact A|]. split; [exact (adds_cor emin prec choice xs empty)|].
  pose proof (value_bound emin prec choice P E S xs N) as B. cbv zeta in B.
  replace (exact (map Rabs (losses emin prec choice empty xs))) with (size (losses emin prec choice empty xs)); auto.
  unfold size, exact. generalize (losses emin prec choice empty xs). induction l as [|y l IH]; cbn [map fold_right]; congruence.
Qed.
Print Assumptions C49_total.

(** The second order sum loses nothing either: [sum], [cs] and the parts lost by both add up to the exact sum. *)
Theorem C49_klein (emin prec : Z) (choice : Z -> bool) (xs : list R) :
  (1 < prec)%Z -> (emin <= 0)%Z -> symmetric choice -> Forall (number emin prec) xs ->
  exists s cs ccs es, klein_loop (nearest emin prec choice) xs = (s, cs, ccs)
    /\ List.length es = List.length xs
    /\ s + cs + exact es = exact xs
    /\ ccs = fold_left (fun c e => nearest emin prec choice (c + e)) es 0
    /\ s = sum (adds (nearest emin prec choice) empty xs)
    /\ klein (nearest emin prec choice) xs = nearest emin prec choice (nearest emin prec choice (s + cs) + ccs).
Proof.
  intros P E S N. unfold klein. destruct (klein_loop (nearest emin prec choice) xs) as [[s cs] ccs] eqn:K.
  destruct (klein_lost emin prec choice P E S xs (0, 0, 0) (num_0 emin prec) (num_0 emin prec) N) as [A B].
  unfold klein_loop in K. rewrite K in A, B. cbn [fst snd] in A, B.
  exists s, cs, ccs, (klein_losses emin prec choice (0, 0, 0) xs). split; [reflexivity|]. split.
  - generalize (0, 0, 0). clear. induction xs as [|x xs IH]; intros a; cbn [klein_losses List.length]; auto.
  - split; [lra|]. split; [exact B|]. split; [|reflexivity].
    assert (G : forall xs a b, fst (fst a) = sum b -> fst (fst (fold_left (klein_step (nearest emin prec choice)) xs a)) = sum (adds (nearest emin prec choice) b xs)).
    { clear. induction xs as [|x xs IH]; intros a b H; cbn [fold_left adds]; auto. fold (adds (nearest emin prec choice) (add (nearest emin prec choice) b x) xs).
      apply IH. destruct a as [[s cs] ccs]. cbn [fst] in H. subst s. reflexivity. }
    specialize (G xs (0, 0, 0) empty eq_refl). rewrite K in G. exact G.
Qed.
Print Assumptions C49_klein.

(** Doubles, rounding to even. *)
Notation double := (nearest (-1074) 53 (fun x => negb (Z.even x))).

Lemma even_symmetric : symmetric (fun x => negb (Z.even x)).
Proof.
  intros x. rewrite Z.even_opp, Z.even_add. change (Z.even 1) with false. destruct (Z.even x); reflexivity.
Qed.

Lemma double_Z (z : Z) : (Z.abs z <= 2 ^ 53)%Z -> number (-1074) 53 (IZR z).
Proof.
  intros H. destruct (Z.eq_dec (Z.abs z) (2 ^ 53)) as [Q|Q].
  - assert (G : number (-1074) 53 (IZR (2 ^ 53))).
    { change (IZR (2 ^ 53)) with (IZR (Zpower radix2 53)). rewrite IZR_Zpower by lia. apply generic_format_bpow. unfold FLT_exp. lia. }
    destruct (Z.abs_spec z) as [[_ E]|[_ E]]; [replace z with (2 ^ 53)%Z by lia; exact G|].
    replace z with (- (2 ^ 53))%Z by lia. rewrite opp_IZR. apply generic_format_opp, G.
  - apply generic_format_FLT. exists (Float radix2 z 0); unfold F2R; cbn [Fnum Fexp bpow]; [lra|change (Zpower radix2 53) with (2 ^ 53)%Z; lia|lia].
Qed.

Lemma big_round : double (IZR (2 ^ 53 + 1)) = IZR (2 ^ 53).
Proof.
  unfold nearest, round, scaled_mantissa, cexp.
  assert (M : mag radix2 (IZR (2 ^ 53 + 1)) = 54%Z :> Z).
  { apply mag_unique. rewrite Rabs_pos_eq by (apply IZR_le; lia). change (54 - 1)%Z with 53%Z.
    rewrite <- !IZR_Zpower by lia. split; [apply IZR_le|apply IZR_lt]; vm_compute; congruence. }
  rewrite M. change (FLT_exp (-1074) 53 54) with 1%Z. unfold F2R. cbn [Fnum Fexp]. change (bpow radix2 (- (1))) with (/ 2). change (bpow radix2 1) with 2.
  replace (IZR (2 ^ 53 + 1) * / 2) with (IZR (2 ^ 52) + / 2) by (rewrite plus_IZR; change (2 ^ 53)%Z with (2 * 2 ^ 52)%Z; rewrite mult_IZR; field).
  assert (F : Zfloor (IZR (2 ^ 52) + / 2) = (2 ^ 52)%Z) by (apply Zfloor_imp; rewrite plus_IZR; lra).
  unfold Znearest. rewrite F. rewrite Rcompare_Eq by lra. change (negb (Z.even (2 ^ 52))) with false. cbv iota.
  rewrite <- mult_IZR. reflexivity.
Qed.

(** [operator+] keeps the correction with the opposite sign, but [operator()] adds it: 2^53 + 1, whose rounded sum is 2^53, is returned as 2^53 - 1, further
    from the exact sum than the plain addition. Adding 1 with [operator+=] and then 0 with [operator+] subtracts the lost 1 again. *)
Theorem C49_plus_refuted :
  exists a x, cor a = 0 /\ number (-1074) 53 (sum a) /\ number (-1074) 53 x
    /\ Rabs (value double (plus double a x) - (sum a + x)) = 2 * Rabs (double (sum a + x) - (sum a + x))
    /\ 0 < Rabs (double (sum a + x) - (sum a + x))
    /\ value double (add double a x) = double (sum a + x)
    /\ value double (plus double (add double a x) 0) = sum a + x - 2.
Proof.
  exists (Acc (IZR (2 ^ 53)) 0), 1. cbn [cor sum].
  assert (N0 : number (-1074) 53 (IZR (2 ^ 53))) by (apply double_Z; vm_compute; congruence).
  assert (R0 : IZR (2 ^ 53) + 1 = IZR (2 ^ 53 + 1)) by (rewrite plus_IZR; reflexivity).
  assert (Id : forall z, (Z.abs z <= 2 ^ 53)%Z -> double (IZR z) = IZR z) by (intros z H; apply fl_of, double_Z, H).
  assert (Hm : 1 < IZR (2 ^ 53)) by (apply IZR_lt; vm_compute; reflexivity).
  split; [reflexivity|]. split; [exact N0|]. split; [change 1 with (IZR 1); apply double_Z; vm_compute; congruence|].
  assert (I0 : double 0 = 0) by (apply (Id 0%Z); vm_compute; congruence).
  assert (I1 : double 1 = 1) by (apply (Id 1%Z); vm_compute; congruence).
  assert (Im : double (-1) = -1) by (apply (Id (-1)%Z); vm_compute; congruence).
  assert (Ib : double (IZR (2 ^ 53)) = IZR (2 ^ 53)) by (apply Id; vm_compute; congruence).
  assert (Ibm : double (IZR (2 ^ 53) - 1) = IZR (2 ^ 53) - 1).
  { replace (IZR (2 ^ 53) - 1) with (IZR (2 ^ 53 - 1)) by (rewrite minus_IZR; reflexivity). apply Id. vm_compute. congruence. }
  assert (Vp : value double (plus double (Acc (IZR (2 ^ 53)) 0) 1) = IZR (2 ^ 53) - 1).
  { unfold value, plus. cbn [sum cor]. rewrite Rminus_0_r, I1, R0, big_round. replace (IZR (2 ^ 53) - IZR (2 ^ 53)) with 0 by ring. rewrite I0.
    replace (0 - 1) with (-1) by ring. rewrite Im. replace (IZR (2 ^ 53) + -1) with (IZR (2 ^ 53) - 1) by ring. exact Ibm. }
  assert (Ad : add double (Acc (IZR (2 ^ 53)) 0) 1 = Acc (IZR (2 ^ 53)) 1).
  { unfold add, lost. cbn [sum cor]. rewrite R0, big_round. f_equal.
    unfold rle. rewrite (Rabs_pos_eq 1), (Rabs_pos_eq (IZR (2 ^ 53))) by lra.
    destruct (rlt (IZR (2 ^ 53)) 1) eqn:Q; [apply rlt_true in Q; lra|]. cbn [negb].
    replace (IZR (2 ^ 53) - IZR (2 ^ 53)) with 0 by ring. rewrite I0, !Rplus_0_l, I1, I1. reflexivity. }
  rewrite Vp, Ad, R0, big_round. rewrite plus_IZR. repeat split.
  - replace (IZR (2 ^ 53) - 1 - (IZR (2 ^ 53) + 1)) with (-2) by ring. replace (IZR (2 ^ 53) - (IZR (2 ^ 53) + 1)) with (-1) by ring.
    rewrite (Rabs_left (-2)), (Rabs_left (-1)) by lra. ring.
  - replace (IZR (2 ^ 53) - (IZR (2 ^ 53) + 1)) with (-1) by ring. rewrite Rabs_left; lra.
  - unfold value. cbn [sum cor]. rewrite R0, big_round. reflexivity.
  - unfold value, plus. cbn [sum cor]. replace (0 - 1) with (-1) by ring. rewrite Im. replace (IZR (2 ^ 53) + -1) with (IZR (2 ^ 53) - 1) by ring. rewrite Ibm.
    replace (IZR (2 ^ 53) - 1 - IZR (2 ^ 53)) with (-1) by ring. rewrite Im. replace (-1 - -1) with 0 by ring. rewrite I0, Rplus_0_r, Ibm. ring.
Qed.
Print Assumptions C49_plus_refuted.

(** 2^53 + 1 + 1: plain addition of doubles stays at 2^53, the compensated sum is exact. *)
Example C49_example :
  symmetric (fun x => negb (Z.even x)) /\ Forall (number (-1074) 53) [IZR (2 ^ 53); 1; 1]
  /\ fold_left (fun s x => double (s + x)) [IZR (2 ^ 53); 1; 1] 0 = IZR (2 ^ 53)
  /\ value double (adds double empty [IZR (2 ^ 53); 1; 1]) = IZR (2 ^ 53 + 2).
Proof.
  assert (N0 : number (-1074) 53 (IZR (2 ^ 53))) by (apply double_Z; vm_compute; congruence).
  assert (R0 : IZR (2 ^ 53) + 1 = IZR (2 ^ 53 + 1)) by (rewrite plus_IZR; reflexivity).
  assert (Id : forall z, (Z.abs z <= 2 ^ 53)%Z -> double (IZR z) = IZR z) by (intros z H; apply fl_of, double_Z, H).
  assert (Hm : 1 < IZR (2 ^ 53)) by (apply IZR_lt; vm_compute; reflexivity).
  assert (N1 : number (-1074) 53 1) by (change 1 with (IZR 1); apply double_Z; vm_compute; congruence).
  assert (I0 : double 0 = 0) by (apply (Id 0%Z); vm_compute; congruence).
  assert (I1 : double 1 = 1) by (apply (Id 1%Z); vm_compute; congruence).
  assert (I2 : double 2 = 2) by (apply (Id 2%Z); vm_compute; congruence).
  assert (Ib : double (IZR (2 ^ 53)) = IZR (2 ^ 53)) by (apply Id; vm_compute; congruence).
  assert (Ib2 : double (IZR (2 ^ 53 + 2)) = IZR (2 ^ 53 + 2)).
  { apply fl_of. apply generic_format_FLT. exists (Float radix2 (2 ^ 52 + 1) 1); unfold F2R; cbn [Fnum Fexp].
    - change (bpow radix2 1) with (IZR 2). rewrite <- mult_IZR. reflexivity.
    - vm_compute. reflexivity.
    - lia. }
  split; [apply even_symmetric|]. split; [auto|]. split.
  - cbn [fold_left]. rewrite Rplus_0_l, Ib, R0, big_round, R0, big_round. reflexivity.
  - assert (Q1 : forall c, double (c + 1) = c + 1 -> add double (Acc (IZR (2 ^ 53)) c) 1 = Acc (IZR (2 ^ 53)) (c + 1)).
    { intros c Hc. unfold add, lost. cbn [sum cor]. rewrite R0, big_round. f_equal.
      unfold rle. rewrite (Rabs_pos_eq 1), (Rabs_pos_eq (IZR (2 ^ 53))) by lra.
      destruct (rlt (IZR (2 ^ 53)) 1) eqn:Q; [apply rlt_true in Q; lra|]. cbn [negb].
      replace (IZR (2 ^ 53) - IZR (2 ^ 53)) with 0 by ring. rewrite I0, Rplus_0_l, I1. exact Hc. }
    assert (Q0 : add double empty (IZR (2 ^ 53)) = Acc (IZR (2 ^ 53)) 0).
    { unfold add, lost. cbn [sum cor empty]. rewrite Rplus_0_l, Ib. f_equal. unfold rle. rewrite Rabs_R0, (Rabs_pos_eq (IZR (2 ^ 53))) by lra.
      destruct (rlt 0 (IZR (2 ^ 53))) eqn:Q; [|apply rlt_false in Q; lra]. cbn [negb].
      replace (IZR (2 ^ 53) - IZR (2 ^ 53)) with 0 by ring. rewrite I0, !Rplus_0_l, I0, I0. reflexivity. }
    unfold adds. cbn [fold_left]. rewrite Q0, Q1 by (rewrite Rplus_0_l; exact I1). rewrite Rplus_0_l, Q1 by (replace (1 + 1) with 2 by ring; exact I2).
    unfold value. cbn [sum cor]. replace (IZR (2 ^ 53) + (1 + 1)) with (IZR (2 ^ 53 + 2)) by (rewrite plus_IZR; lra). exact Ib2.
Qed.
