(** Proofs about KahanSum. *)
From Coq Require Import Reals List ZArith Lra Lia.
From Flocq Require Import Core Plus_error Relative Pff.Pff2Flocq.
From Verif.Phsp Require Import Model Proofs.
From Verif.Kahan Require Import Model Spec.
Import ListNotations.
Local Open Scope R_scope.

Lemma exact_app a b : exact (a ++ b) = exact a + exact b.
Proof. unfold exact. induction a as [|x a IH]; cbn [app fold_right]; [lra|]. rewrite IH. ring. Qed.

Lemma rle_true a b : rle a b = true -> a <= b.
Proof. unfold rle. destruct (rlt b a) eqn:E; [discriminate|]. intros _. apply rlt_false in E. exact E. Qed.
Lemma rle_false a b : rle a b = false -> b < a.
Proof. unfold rle. destruct (rlt b a) eqn:E; [|discriminate]. intros _. apply rlt_true in E. exact E. Qed.

(** *** Exact arithmetic *)
Lemma adds_exact xs : forall a, cor a = 0 -> sum (adds (fun x => x) a xs) = sum a + exact xs /\ cor (adds (fun x => x) a xs) = 0.
Proof.
  induction xs as [|x xs IH]; intros a C; cbn [adds fold_left]; [split; [unfold exact; cbn; ring|auto]|].
  fold (adds (fun x => x) (add (fun x => x) a x) xs). destruct (IH (add (fun x => x) a x)) as [A B].
  - unfold add, lost. cbn [cor]. rewrite C. destruct (rle _ _); ring.
  - rewrite A, B. cbn [sum add]. split; auto. change (exact (x :: xs)) with (x + exact xs). ring.
Qed.

Section Binary.
  Variables emin prec : Z.
  Variable choice : Z -> bool.
  Hypothesis P1 : (1 < prec)%Z.
  Hypothesis E0 : (emin <= 0)%Z.
  Hypothesis Sym : symmetric choice.
  Notation fl := (nearest emin prec choice).
  Notation num := (number emin prec).

  Instance prec_pos : Prec_gt_0 prec.
  Proof. unfold Prec_gt_0. lia. Qed.

  Lemma fl_num x : num (fl x).
  Proof. unfold number, nearest. apply generic_format_round; [apply FLT_exp_valid; apply prec_pos|apply valid_rnd_N]. Qed.
  Lemma num_0 : num 0.
  Proof. apply generic_format_0. Qed.
  Lemma fl_of x : num x -> fl x = x.
  Proof. intros H. unfold nearest. apply round_generic; auto. apply valid_rnd_N. Qed.

  Lemma lost_exact a x : num (sum a) -> num x -> fl (sum a + x) + lost fl a x = sum a + x.
  Proof.
    intros Ns Nx. unfold lost. destruct (rle (Rabs x) (Rabs (sum a))) eqn:Q.
    - apply rle_true in Q. rewrite (Rplus_comm (fl (sum a - fl (sum a + x))) x).
      apply (Fast2Sum_correct emin prec choice P1 E0 Sym (sum a) x Ns Nx Q).
    - apply rle_false in Q. rewrite (Rplus_comm (fl (x - fl (sum a + x))) (sum a)). rewrite (Rplus_comm (sum a) x).
      apply (Fast2Sum_correct emin prec choice P1 E0 Sym x (sum a) Nx Ns). lra.
  Qed.

  Lemma two_exact s x : num s -> num x -> num (fst (two fl s x)) /\ num (snd (two fl s x)) /\ fst (two fl s x) + snd (two fl s x) = s + x.
  Proof.
    intros Ns Nx. unfold two. cbn [fst snd]. split; [apply fl_num|]. split; [destruct (rle _ _); apply fl_num|].
    exact (lost_exact (Acc s 0) x Ns Nx).
  Qed.

  (** The parts lost by the additions, in order. *)
  Fixpoint losses (a : acc) (xs : list R) : list R := match xs with [] => [] | x :: xs' => lost fl a x :: losses (add fl a x) xs' end.

  Lemma adds_lost xs : forall a, num (sum a) -> Forall num xs ->
    num (sum (adds fl a xs)) /\ sum (adds fl a xs) + exact (losses a xs) = sum a + exact xs.
  Proof.
    induction xs as [|x xs IH]; intros a Na Nx; cbn [adds fold_left losses]; [split; auto|].
    inversion Nx as [|? ? N1 N2]; subst. fold (adds fl (add fl a x) xs). destruct (IH (add fl a x)) as [A B]; auto; [apply fl_num|].
    split; auto. change (exact (lost fl a x :: losses (add fl a x) xs)) with (lost fl a x + exact (losses (add fl a x) xs)).
    change (exact (x :: xs)) with (x + exact xs). cbn [sum add] in B. pose proof (lost_exact a x Na N1). lra.
  Qed.

  Lemma lost_num a x : num (lost fl a x).
  Proof. unfold lost. destruct (rle _ _); apply fl_num. Qed.

  Lemma adds_cor xs : forall a, cor (adds fl a xs) = fold_left (fun c e => fl (c + e)) (losses a xs) (cor a).
  Proof.
    induction xs as [|x xs IH]; intros a; cbn [adds fold_left losses]; auto. fold (adds fl (add fl a x) xs). rewrite IH. reflexivity.
  Qed.

  (** *** The bound *)
  Notation eps := (half_ulp prec).
  Lemma eps_pos : 0 < eps.
  Proof. apply bpow_gt_0. Qed.

  Lemma fl_plus_error x y : num x -> num y -> Rabs (fl (x + y) - (x + y)) <= eps * Rabs (x + y).
  Proof.
    intros Nx Ny. destruct (FLT_plus_error_N_ex radix2 emin prec choice x y Nx Ny) as (d & Hd & Er).
    unfold nearest. rewrite Er. replace ((x + y) * (1 + d) - (x + y)) with ((x + y) * d) by ring. rewrite Rabs_mult, Rmult_comm.
    apply Rmult_le_compat_r; [apply Rabs_pos|]. eapply Rle_trans; [exact Hd|].
    assert (U : u_ro radix2 prec = eps).
    { unfold u_ro, half_ulp. rewrite bpow_plus. cbn -[Rinv]. field_simplify. reflexivity. }
    rewrite U. pose proof eps_pos. apply Rmult_le_reg_r with (1 + eps); [lra|]. unfold Rdiv. rewrite Rmult_assoc, Rinv_l by lra. nra.
  Qed.

  Definition size (l : list R) : R := fold_right (fun x s => Rabs x + s) 0 l.
  Lemma size_pos l : 0 <= size l.
  Proof. unfold size. induction l as [|x l IH]; cbn [fold_right]; [lra|]. pose proof (Rabs_pos x). lra. Qed.
  Lemma exact_size l : Rabs (exact l) <= size l.
  Proof.
    unfold exact, size. induction l as [|x l IH]; cbn [fold_right]; [rewrite Rabs_R0; lra|].
    eapply Rle_trans; [apply Rabs_triang|]. lra.
  Qed.

  Lemma pow_1 k : 1 <= (1 + eps) ^ k.
  Proof. pose proof eps_pos. apply pow_R1_Rle. lra. Qed.

  (** A rounded sum of n terms. *)
  Lemma naive l : forall c, num c -> Forall num l -> Rabs (fold_left (fun c e => fl (c + e)) l c - (c + exact l)) <= ((1 + eps) ^ List.length l - 1) * (Rabs c + size l).
  Proof.
    induction l as [|x l IH]; intros c Nc Nl; cbn [fold_left List.length pow].
    - unfold exact, size. cbn [fold_right]. replace (c - (c + 0)) with 0 by ring. rewrite Rabs_R0. pose proof (Rabs_pos c). lra.
    - inversion Nl as [|? ? N1 N2]; subst. specialize (IH (fl (c + x)) (fl_num _) N2). pose proof (fl_plus_error c x Nc N1) as D.
      set (f := fold_left _ l _) in *. change (exact (x :: l)) with (x + exact l). change (size (x :: l)) with (Rabs x + size l).
      set (K := (1 + eps) ^ List.length l) in *. pose proof (pow_1 (List.length l)) as K1. fold K in K1. pose proof eps_pos as Ep. pose proof (size_pos l) as S0.
      set (r := fl (c + x)) in *. pose proof (Rabs_triang c x) as Tcx.
      assert (Tr : Rabs r <= (1 + eps) * Rabs (c + x)).
      { replace r with ((r - (c + x)) + (c + x)) by ring. eapply Rle_trans; [apply Rabs_triang|]. lra. }
      replace (f - (c + (x + exact l))) with ((f - (r + exact l)) + (r - (c + x))) by ring.
      eapply Rle_trans; [apply Rabs_triang|].
      assert (H1 : (K - 1) * (Rabs r + size l) <= (K - 1) * ((1 + eps) * (Rabs c + Rabs x) + size l)).
      { apply Rmult_le_compat_l; [lra|]. assert ((1 + eps) * Rabs (c + x) <= (1 + eps) * (Rabs c + Rabs x)) by (apply Rmult_le_compat_l; lra). lra. }
      assert (H2 : eps * Rabs (c + x) <= eps * (Rabs c + Rabs x)) by (apply Rmult_le_compat_l; lra).
      assert (H3 : 0 <= eps * K * size l) by (repeat apply Rmult_le_pos; lra).
      clearbody f r K.
      assert (H4 : (K - 1) * ((1 + eps) * (Rabs c + Rabs x) + size l) + eps * (Rabs c + Rabs x) + eps * K * size l = ((1 + eps) * K - 1) * (Rabs c + Rabs x + size l)) by ring.
      rewrite <- Rplus_assoc. lra.
  Qed.

  Lemma losses_num xs : forall a, Forall num (losses a xs).
  Proof. induction xs as [|x xs IH]; intros a; cbn [losses]; constructor; auto. apply lost_num. Qed.
  Lemma losses_length xs : forall a, List.length (losses a xs) = List.length xs.
  Proof. induction xs as [|x xs IH]; intros a; cbn [losses List.length]; auto. Qed.

  Lemma fold_num l : forall c, num c -> num (fold_left (fun c e => fl (c + e)) l c).
  Proof. induction l as [|x l IH]; intros c Nc; cbn [fold_left]; auto. apply IH, fl_num. Qed.

  Lemma value_bound xs : Forall num xs ->
    let L := losses empty xs in
    Rabs (value fl (adds fl empty xs) - exact xs) <= eps * Rabs (exact xs) + (1 + eps) * ((1 + eps) ^ List.length xs - 1) * size L.
  Proof.
    intros Nx L. destruct (adds_lost xs empty num_0 Nx) as [Ns Es]. cbn [sum empty] in Es. fold L in Es.
    pose proof (adds_cor xs empty) as Ec. cbn [cor empty] in Ec. fold L in Ec.
    pose proof (naive L 0 num_0 (losses_num xs empty)) as Nv. unfold L in Nv at 3. rewrite losses_length in Nv. rewrite Rabs_R0, !Rplus_0_l in Nv.
    set (C := fold_left _ L 0) in *. assert (Nc : num C) by (apply fold_num, num_0).
    unfold value. rewrite Ec. set (s := sum (adds fl empty xs)) in *.
    pose proof (fl_plus_error s C Ns Nc) as D. set (v := fl (s + C)) in *. set (K := (1 + eps) ^ List.length xs - 1) in *.
    set (S := exact xs) in *. assert (Sd : s + C = S + (C - exact L)) by lra.
    replace (v - S) with ((v - (s + C)) + (C - exact L)) by lra. eapply Rle_trans; [apply Rabs_triang|].
    pose proof eps_pos as Ep. assert (H : Rabs (s + C) <= Rabs S + Rabs (C - exact L)) by (rewrite Sd; apply Rabs_triang).
    assert (eps * Rabs (s + C) <= eps * (Rabs S + Rabs (C - exact L))) by (apply Rmult_le_compat_l; lra).
    assert (eps * Rabs (C - exact L) <= eps * (K * size L)) by (apply Rmult_le_compat_l; lra). lra.
  Qed.

  (** Each lost part is at most half an ulp of the partial sum. *)
  Lemma lost_small a x : num (sum a) -> num x -> Rabs (lost fl a x) <= eps * Rabs (sum a + x).
  Proof.
    intros Ns Nx. pose proof (lost_exact a x Ns Nx). pose proof (fl_plus_error (sum a) x Ns Nx) as D.
    replace (lost fl a x) with (- (fl (sum a + x) - (sum a + x))) by lra. rewrite Rabs_Ropp. exact D.
  Qed.

  (** *** The second order sum *)
  Fixpoint klein_losses (a : R * R * R) (xs : list R) : list R :=
    match xs with [] => [] | x :: xs' => snd (two fl (snd (fst a)) (snd (two fl (fst (fst a)) x))) :: klein_losses (klein_step fl a x) xs' end.

  Lemma klein_lost xs : forall a, num (fst (fst a)) -> num (snd (fst a)) -> Forall num xs ->
    let r := fold_left (klein_step fl) xs a in
    fst (fst r) + snd (fst r) + exact (klein_losses a xs) = fst (fst a) + snd (fst a) + exact xs
    /\ snd r = fold_left (fun c e => fl (c + e)) (klein_losses a xs) (snd a).
  Proof.
    induction xs as [|x xs IH]; intros [[s cs] ccs] N1 N2 Nx; cbn [fold_left klein_losses fst snd]; [split; auto|].
    inversion Nx as [|? ? M1 M2]; subst. cbn [fst snd] in N1, N2.
    destruct (two_exact s x N1 M1) as (A1 & A2 & A3). destruct (two_exact cs (snd (two fl s x)) N2 A2) as (B1 & B2 & B3).
    assert (Es : klein_step fl (s, cs, ccs) x = (fst (two fl s x), fst (two fl cs (snd (two fl s x))), fl (ccs + snd (two fl cs (snd (two fl s x)))))).
    { unfold klein_step. destruct (two fl s x) as [s' c]. cbn [fst snd]. destruct (two fl cs c) as [cs' cc]. reflexivity. }
    rewrite Es. specialize (IH (fst (two fl s x), fst (two fl cs (snd (two fl s x))), fl (ccs + snd (two fl cs (snd (two fl s x))))) A1 B1 M2).
    cbn [fst snd] in IH. destruct IH as [I1 I2].
    set (L := klein_losses _ xs) in *. change (exact (snd (two fl cs (snd (two fl s x))) :: L)) with (snd (two fl cs (snd (two fl s x))) + exact L).
    change (exact (x :: xs)) with (x + exact xs). split; [lra|exact I2].
  Qed.
End Binary.
