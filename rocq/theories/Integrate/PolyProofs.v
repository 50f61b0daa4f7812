(** Polynomials of degree seven are integrated exactly. *)
From Verif.Common Require Import Prelude.
From Coq Require Import Reals Lra.
From Verif.Integrate Require Import Model Spec LoopProofs RuleProofs.
Local Open Scope R_scope.

(** ** Functionals of a function on the unit cube *)
Definition at0 (n : nat) (H : list R -> R) : R := H (zeros n).
Definition A1 (n : nat) (l : R) (H : list R -> R) : R := Rsum (fun j => H (e1 n (- l) j) + H (e1 n l j)) (seq 0 n).
Definition four' n l (H : list R -> R) j k := H (e2 n l j l k) + H (e2 n l j (- l) k) + H (e2 n (- l) j l k) + H (e2 n (- l) j (- l) k).
Definition A2 (n : nat) (l : R) (H : list R -> R) : R := Rsum (fun j => Rsum (four' n l H j) (seq (S j) (n - S j))) (seq 0 n).
Definition A5 (n : nat) (l : R) (H : list R -> R) : R := Rsum (fun m => H (signs l n m)) (seq 0 (2 ^ n)).

Lemma zeros_length n : List.length (zeros n) = n. Proof. apply repeat_length. Qed.
Lemma e1_length n l j : List.length (e1 n l j) = n. Proof. unfold e1. now rewrite add_at_length, zeros_length. Qed.
Lemma e2_length n l j l' k : List.length (e2 n l j l' k) = n. Proof. unfold e2. now rewrite add_at_length, e1_length. Qed.

Section Linear.
  Variable n : nat.
  Definition same (H H' : list R -> R) : Prop := forall t, List.length t = n -> H t = H' t.
  Definition functional (L : (list R -> R) -> R) : Prop :=
    (forall H H', same H H' -> L H = L H') /\ (forall H H', L (fun t => H t + H' t) = L H + L H') /\ (forall c H, L (fun t => c * H t) = c * L H).
  Lemma at0_functional : functional (at0 n).
  Proof. repeat split; intros; unfold at0; try lra. apply H0. apply zeros_length. Qed.
  Lemma A1_functional l : functional (A1 n l).
  Proof.
    split; [|split]; intros.
    - apply Rsum_ext. intros j _. rewrite !H0; auto using e1_length.
    - unfold A1. rewrite <- Rsum_add. apply Rsum_ext. intros j _. lra.
    - unfold A1. rewrite <- Rsum_mul. apply Rsum_ext. intros j _. lra.
  Qed.
  Lemma A2_functional l : functional (A2 n l).
  Proof.
    split; [|split]; intros.
    - apply Rsum_ext. intros j _. apply Rsum_ext. intros k _. unfold four'. rewrite !H0; auto using e2_length.
    - unfold A2. rewrite <- Rsum_add. apply Rsum_ext. intros j _. rewrite <- Rsum_add. apply Rsum_ext. intros k _. unfold four'. lra.
    - unfold A2. rewrite <- Rsum_mul. apply Rsum_ext. intros j _. rewrite <- Rsum_mul. apply Rsum_ext. intros k _. unfold four'. lra.
  Qed.
  Lemma A5_functional l : functional (A5 n l).
  Proof.
    split; [|split]; intros.
    - apply Rsum_ext. intros j _. apply H0. apply signs_length.
    - unfold A5. now rewrite <- Rsum_add.
    - unfold A5. now rewrite <- Rsum_mul.
  Qed.
  Lemma functional_add L L' : functional L -> functional L' -> functional (fun H => L H + L' H).
  Proof.
    intros (a1 & a2 & a3) (b1 & b2 & b3). split; [|split]; intros.
    - rewrite (a1 _ _ H0), (b1 _ _ H0). reflexivity.
    - rewrite a2, b2. lra.
    - rewrite a3, b3. lra.
  Qed.
  Lemma functional_mul c L : functional L -> functional (fun H => c * L H).
  Proof.
    intros (a1 & a2 & a3). split; [|split]; intros.
    - now rewrite (a1 _ _ H0).
    - rewrite a2. lra.
    - rewrite a3. lra.
  Qed.
  Lemma functional_sum L {X} (l : list X) (h : X -> list R -> R) : functional L -> L (fun t => Rsum (fun x => h x t) l) = Rsum (fun x => L (h x)) l.
  Proof.
    intros (a1 & a2 & a3). induction l as [|x l IH].
    - replace (Rsum (fun x => L (h x)) []) with 0 by reflexivity. rewrite (a1 _ (fun t => 0 * 0)) by (intros t _; cbn; lra). rewrite (a3 0 (fun _ => 0)). lra.
    - rewrite Rsum_cons, <- IH. rewrite <- a2. apply a1. intros t _. reflexivity.
  Qed.
End Linear.

(** ** Monomials *)
Fixpoint mono (k : list nat) (t : list R) : R := match k, t with a :: k', s :: t' => s ^ a * mono k' t' | _, _ => 1 end.
Definition sg (a : nat) (l : R) : R := (- l) ^ a + l ^ a.
Fixpoint Z0 (k : list nat) : R := match k with [] => 1 | a :: k' => 0 ^ a * Z0 k' end.
Fixpoint M1 (l : R) (k : list nat) : R := match k with [] => 0 | a :: k' => sg a l * Z0 k' + 0 ^ a * M1 l k' end.
Fixpoint M2 (l : R) (k : list nat) : R := match k with [] => 0 | a :: k' => sg a l * M1 l k' + 0 ^ a * M2 l k' end.
Fixpoint M5 (l : R) (k : list nat) : R := match k with [] => 1 | a :: k' => sg a l * M5 l k' end.
Lemma at0_mono k : at0 (List.length k) (mono k) = Z0 k.
Proof. unfold at0. induction k as [|a k IH]; [reflexivity|]. cbn [List.length zeros repeat mono Z0]. unfold zeros in *. cbn [repeat mono]. now rewrite IH. Qed.
Lemma e1_0 n l : e1 (S n) l 0 = l :: zeros n. Proof. unfold e1, zeros. cbn. f_equal. lra. Qed.
Lemma e1_S n l j : e1 (S n) l (S j) = 0 :: e1 n l j. Proof. reflexivity. Qed.
Lemma e2_0 n l l' k : e2 (S n) l 0 l' (S k) = l :: e1 n l' k. Proof. unfold e2. rewrite e1_0. reflexivity. Qed.
Lemma e2_S n l j l' k : e2 (S n) l (S j) l' (S k) = 0 :: e2 n l j l' k. Proof. reflexivity. Qed.
Lemma A1_mono l k : A1 (List.length k) l (mono k) = M1 l k.
Proof.
  induction k as [|a k IH]; [reflexivity|]. unfold A1. cbn [List.length]. rewrite seq_succ, Rsum_cons, Rsum_map. cbn [M1]. rewrite <- IH. unfold A1. rewrite <- Rsum_mul. f_equal.
  - rewrite !e1_0. cbn [mono]. unfold sg. pose proof (at0_mono k) as Q. unfold at0 in Q. rewrite Q. lra.
  - apply Rsum_ext. intros j _. rewrite !e1_S. cbn [mono]. lra.
Qed.
Lemma A2_mono l k : A2 (List.length k) l (mono k) = M2 l k.
Proof.
  induction k as [|a k IH]; [reflexivity|]. unfold A2. cbn [List.length]. rewrite seq_succ, Rsum_cons, Rsum_map. cbn [M2]. rewrite <- IH, <- A1_mono. unfold A2, A1. rewrite <- !Rsum_mul. f_equal.
  - replace (S (List.length k) - 1)%nat with (List.length k) by lia. rewrite <- seq_shift, Rsum_map. apply Rsum_ext. intros j _. unfold four'. rewrite !e2_0. cbn [mono]. unfold sg. lra.
  - apply Rsum_ext. intros j _. rewrite <- Rsum_mul. replace (S (List.length k) - S (S j))%nat with (List.length k - S j)%nat by lia. rewrite <- seq_shift, Rsum_map. apply Rsum_ext. intros i _. unfold four'. rewrite !e2_S. cbn [mono]. lra.
Qed.
Lemma Rsum_app {A} (f : A -> R) l m : Rsum f (l ++ m) = Rsum f l + Rsum f m.
Proof. induction l as [|x l IH]; [cbn; unfold Rsum; lra|]. rewrite <- app_comm_cons, !Rsum_cons, IH. lra. Qed.
Lemma Rsum_double (f : nat -> R) N : Rsum f (seq 0 (2 * N)) = Rsum (fun m => f (2 * m)%nat + f (S (2 * m))) (seq 0 N).
Proof.
  induction N as [|N IH]; [reflexivity|]. replace (2 * S N)%nat with (S (S (2 * N))) by lia. rewrite !seq_S, !Rsum_app, IH, !Nat.add_0_l, !Rsum_cons. unfold Rsum. cbn [map fold_right]. lra.
Qed.
Lemma signs_even l n m : signs l (S n) (2 * m) = - l :: signs l n m.
Proof.
  unfold signs. rewrite seq_succ. cbn [map]. rewrite map_map. rewrite Nat.testbit_even_0. f_equal; [lra|]. apply map_ext. intro k. now rewrite Nat.testbit_even_succ by lia.
Qed.
Lemma signs_odd l n m : signs l (S n) (S (2 * m)) = l :: signs l n m.
Proof.
  unfold signs. rewrite seq_succ. cbn [map]. rewrite map_map. replace (S (2 * m)) with (2 * m + 1)%nat by lia. rewrite Nat.testbit_odd_0. f_equal; [lra|]. apply map_ext. intro k. now rewrite Nat.testbit_odd_succ by lia.
Qed.
Lemma A5_mono l k : A5 (List.length k) l (mono k) = M5 l k.
Proof.
  induction k as [|a k IH]; [unfold A5, Rsum; cbn; lra|]. unfold A5. cbn [List.length M5]. rewrite Nat.pow_succ_r', Rsum_double, <- IH. unfold A5. rewrite <- Rsum_mul. apply Rsum_ext. intros m _. rewrite signs_even, signs_odd. cbn [mono]. unfold sg. lra.
Qed.

(** ** Exponents that are not zero *)
Definition pos (k : list nat) : list nat := filter (fun a => negb (Nat.eqb a 0)) k.
Definition nz (k : list nat) : nat := (List.length k - List.length (pos k))%nat.
Lemma pos_le k : (List.length (pos k) <= List.length k)%nat. Proof. unfold pos. induction k as [|a k IH]; cbn; [lia|]. destruct (Nat.eqb a 0); cbn; lia. Qed.
Lemma nz_0 k : nz (O :: k) = S (nz k). Proof. unfold nz. change (pos (O :: k)) with (pos k). cbn [List.length]. pose proof (pos_le k). lia. Qed.
Lemma nz_S a k : nz (S a :: k) = nz k. Proof. reflexivity. Qed.
Lemma reduce l k : let z := INR (nz k) in let p := pos k in
  Z0 k = Z0 p /\ M1 l k = M1 l p + 2 * z * Z0 p /\ M2 l k = M2 l p + 2 * z * M1 l p + 2 * z * (z - 1) * Z0 p /\ M5 l k = 2 ^ nz k * M5 l p.
Proof.
  cbn zeta. induction k as [|a k (I0 & I1 & I2 & I5)]; [cbn; repeat split; lra|]. destruct a as [|a].
  - change (pos (O :: k)) with (pos k). rewrite nz_0, S_INR. cbn [Z0 M1 M2 M5]. rewrite I0, I1, I2, I5. unfold sg. cbn [pow]. repeat split; ring.
  - change (pos (S a :: k)) with (S a :: pos k). rewrite nz_S. cbn [Z0 M1 M2 M5]. rewrite I0, I1, I2, I5. cbn [pow]. repeat split; ring.
Qed.
Definition mean (a : nat) : R := if Nat.even a then / INR (S a) else 0.
Fixpoint M (k : list nat) : R := match k with [] => 1 | a :: k' => mean a * M k' end.
Lemma M_pos k : M k = M (pos k).
Proof. induction k as [|[|a] k IH]; [reflexivity| |]; cbn [M pos filter Nat.eqb negb]; fold (pos k); rewrite IH; [|reflexivity]. unfold mean. cbn [Nat.even INR]. rewrite Rinv_1. ring. Qed.
Lemma pos_positive k : Forall (fun a => (0 < a)%nat) (pos k).
Proof. apply Forall_forall. intros a I. apply filter_In in I as [_ I]. destruct a; [discriminate|lia]. Qed.
Lemma sum_pos k : list_sum (pos k) = list_sum k. Proof. induction k as [|[|a] k IH]; cbn; auto. Qed.
Lemma sg_odd a l : Nat.odd a = true -> sg a l = 0.
Proof. intro O. apply Nat.odd_spec in O as [m ->]. unfold sg. rewrite !pow_add, !pow_mult. replace ((- l) ^ 2) with (l ^ 2) by ring. ring. Qed.
Lemma sg_even m l : sg (2 * m) l = 2 * (l ^ 2) ^ m.
Proof. unfold sg. rewrite !pow_mult. replace ((- l) ^ 2) with (l ^ 2) by ring. ring. Qed.
Lemma Z0_pos a k : (0 < a)%nat -> Z0 (a :: k) = 0. Proof. destruct a; [lia|]. intros _. cbn. lra. Qed.
Lemma M1_pos l a k : (0 < a)%nat -> M1 l (a :: k) = sg a l * Z0 k. Proof. destruct a; [lia|]. intros _. cbn [M1 pow]. lra. Qed.
Lemma M2_pos l a k : (0 < a)%nat -> M2 l (a :: k) = sg a l * M1 l k. Proof. destruct a; [lia|]. intros _. cbn [M2 pow]. lra. Qed.
Lemma odd_vanish l p : Forall (fun a => (0 < a)%nat) p -> existsb Nat.odd p = true -> Z0 p = 0 /\ M1 l p = 0 /\ M2 l p = 0 /\ M5 l p = 0 /\ M p = 0.
Proof.
  induction p as [|a p IH]; [discriminate|]. intros P O. apply Forall_cons_iff in P as [Pa P]. rewrite (Z0_pos a), (M1_pos l a), (M2_pos l a) by exact Pa. cbn [M5 M]. cbn [existsb] in O. apply orb_true_iff in O as [O|O].
  - rewrite (sg_odd _ _ O). unfold mean. rewrite <- Nat.negb_odd, O. cbn. repeat split; ring.
  - destruct (IH P O) as (R1 & R2 & R3 & R4 & R5). rewrite R1, R2, R4, R5. repeat split; ring.
Qed.
Lemma even_short p : Forall (fun a => (0 < a)%nat) p -> existsb Nat.odd p = false -> (list_sum p <= 7)%nat ->
  p = [] \/ p = [2]%nat \/ p = [4]%nat \/ p = [6]%nat \/ p = [2; 2]%nat \/ p = [2; 4]%nat \/ p = [4; 2]%nat \/ p = [2; 2; 2]%nat.
Proof.
  assert (E : forall a, ((0 < a) -> Nat.odd a = false -> (a <= 7) -> a = 2 \/ a = 4 \/ a = 6)%nat).
  { intros a Pa Oa La. do 8 (destruct a as [|a]; [cbn in Oa; try discriminate Oa; lia|]). lia. }
  intros P O S. destruct p as [|a p]; [auto|]. cbn in O, S. apply orb_false_iff in O as [Oa O]. apply Forall_cons_iff in P as [Pa P].
  assert (a = 2 \/ a = 4 \/ a = 6)%nat as Ha by (apply E; auto; lia).
  destruct p as [|b p]; [destruct Ha as [-> |[-> | ->]]; auto 10|]. cbn in O, S. apply orb_false_iff in O as [Ob O]. apply Forall_cons_iff in P as [Pb P].
  assert (b = 2 \/ b = 4 \/ b = 6)%nat as Hb by (apply E; auto; lia).
  destruct p as [|c p]; [destruct Ha as [-> |[-> | ->]], Hb as [-> |[-> | ->]]; auto 10; lia|]. cbn in O, S. apply orb_false_iff in O as [Oc O]. apply Forall_cons_iff in P as [Pc P].
  assert (c = 2 \/ c = 4 \/ c = 6)%nat as Hc by (apply E; auto; lia).
  destruct p as [|d p]; [destruct Ha as [-> |[-> | ->]], Hb as [-> |[-> | ->]], Hc as [-> |[-> | ->]]; auto 10; lia|]. cbn in O, S. apply orb_false_iff in O as [Od O]. apply Forall_cons_iff in P as [Pd P].
  assert (d = 2 \/ d = 4 \/ d = 6)%nat as Hd by (apply E; auto; lia). lia.
Qed.

(** ** The rule is exact on monomials *)
Section Exact.
  Variable l2 l4 l5 : R.
  Hypothesis L2 : l2 ^ 2 = 9 / 70.
  Hypothesis L4 : l4 ^ 2 = 9 / 10.
  Hypothesis L5 : l5 ^ 2 = 9 / 19.
  Variable k : list nat.
  Let n := List.length k.
  Definition seven (n : nat) (l2 l4 l5 : R) (H : list R -> R) : R :=
    (12824 - 9120 * INR n + 400 * INR n ^ 2) / 19683 * at0 n H + 980 / 6561 * A1 n l2 H + (1820 - 400 * INR n) / 19683 * A1 n l4 H + 200 / 19683 * A2 n l4 H + 6859 / 19683 / 2 ^ n * A5 n l5 H.
  Definition five (n : nat) (l2 l4 : R) (H : list R -> R) : R :=
    (729 - 950 * INR n + 50 * INR n ^ 2) / 729 * at0 n H + 245 / 486 * A1 n l2 H + (265 - 100 * INR n) / 1458 * A1 n l4 H + 25 / 729 * A2 n l4 H.
  Lemma n_nz : n = (nz k + List.length (pos k))%nat. Proof. unfold nz, n. pose proof (pos_le k). lia. Qed.
  Ltac finish := cbn [List.length]; rewrite ?plus_INR, ?pow_add; cbn [Z0 M1 M2 M5 M INR];
    rewrite ?(fun l => sg_even 1 l : sg 2 l = _), ?(fun l => sg_even 2 l : sg 4 l = _), ?(fun l => sg_even 3 l : sg 6 l = _), ?L2, ?L4, ?L5; unfold mean; cbn [Nat.even Nat.mul Nat.add INR pow]; field; try apply pow_nonzero; try lra.
  Lemma seven_mono : (list_sum k <= 7)%nat -> seven n l2 l4 l5 (mono k) = M k.
  Proof.
    intro D. unfold seven, n. rewrite at0_mono, !A1_mono, A2_mono, A5_mono. fold n. rewrite n_nz, M_pos. rewrite <- sum_pos in D.
    destruct (reduce l2 k) as (_ & E2 & _), (reduce l4 k) as (E0 & E4 & E44 & _), (reduce l5 k) as (_ & _ & _ & E5). rewrite E0, E2, E4, E44, E5. clear E0 E2 E4 E44 E5.
    pose proof (pos_positive k) as P. generalize dependent (pos k). intros p D P. generalize (nz k) as z. intro z.
    destruct (existsb Nat.odd p) eqn:O.
    - destruct (odd_vanish l2 p P O) as (_ & Q2 & _), (odd_vanish l4 p P O) as (Q0 & Q4 & Q44 & _), (odd_vanish l5 p P O) as (_ & _ & _ & Q5 & QM). rewrite Q0, Q2, Q4, Q44, Q5, QM. ring.
    - destruct (even_short p P O D) as [-> |[-> |[-> |[-> |[-> |[-> |[-> | ->]]]]]]]; finish.
  Qed.
  Lemma five_mono : (list_sum k <= 5)%nat -> five n l2 l4 (mono k) = M k.
  Proof.
    intro D. unfold five, n. rewrite at0_mono, !A1_mono, A2_mono. fold n. rewrite n_nz, M_pos. rewrite <- sum_pos in D.
    destruct (reduce l2 k) as (_ & E2 & _), (reduce l4 k) as (E0 & E4 & E44 & _). rewrite E0, E2, E4, E44. clear E0 E2 E4 E44.
    pose proof (pos_positive k) as P. generalize dependent (pos k). intros p D P. generalize (nz k) as z. intro z.
    destruct (existsb Nat.odd p) eqn:O.
    - destruct (odd_vanish l2 p P O) as (_ & Q2 & _), (odd_vanish l4 p P O) as (Q0 & Q4 & Q44 & _ & QM). rewrite Q0, Q2, Q4, Q44, QM. ring.
    - destruct (even_short p P O) as [-> |[-> |[-> |[-> |[-> |[-> |[-> | ->]]]]]]]; try (cbn in D; lia); finish.
  Qed.
End Exact.
