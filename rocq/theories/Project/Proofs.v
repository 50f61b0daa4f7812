(** Supporting lemmas. *)
From Verif.Common Require Import Prelude.
From Coq Require Import Reals Lra Permutation.
From Verif.Project Require Import Model Spec.
Local Open Scope R_scope.

Lemma forall2_length {A B} (P : A -> B -> Prop) l m : Forall2 P l m -> List.length l = List.length m.
Proof. induction 1; cbn; congruence. Qed.
Lemma forall2_weaken {A B} (P Q : A -> B -> Prop) l m : (forall x y, P x y -> Q x y) -> Forall2 P l m -> Forall2 Q l m.
Proof. intros H F. induction F; constructor; auto. Qed.

(** ** Cells *)
Lemma int_part_spec x : IZR (Int_part x) <= x < IZR (Int_part x) + 1.
Proof. pose proof (base_Int_part x). lra. Qed.
Lemma int_part_unique z x : IZR z <= x < IZR z + 1 -> Int_part x = z.
Proof.
  intros H. pose proof (int_part_spec x) as K. assert (A : (Int_part x < z + 1)%Z) by (apply lt_IZR; rewrite plus_IZR; lra).
  assert (B : (z < Int_part x + 1)%Z) by (apply lt_IZR; rewrite plus_IZR; lra). lia.
Qed.
Lemma in_bin_scaled n min max b x : (0 < n)%nat -> min < max -> in_bin n min max b x <-> INR b - 1 <= INR n * (x - min) / (max - min) < INR b.
Proof.
  intros Hn Hm. apply lt_INR in Hn. change (INR 0) with 0 in Hn. unfold in_bin.
  set (u := INR n * (x - min) / (max - min)). assert (X : x = min + u * ((max - min) / INR n)) by (unfold u; field; lra).
  assert (W : 0 < (max - min) / INR n) by (apply Rdiv_lt_0_compat; lra). rewrite X. split; intros [A B]; split; try nra.
Qed.
Lemma find_cell n min max x : (0 < n)%nat -> min < max -> cell n min max x (findBin n min max x).
Proof.
  intros Hn Hm. unfold findBin. destruct (Rlt_dec x min) as [L|L]; [now constructor|]. destruct (Rlt_dec x max) as [U|U]; [|constructor; lra].
  set (u := INR n * (x - min) / (max - min)). pose proof (lt_INR _ _ Hn) as Hn'. change (INR 0) with 0 in Hn'.
  assert (U0 : 0 <= u) by (apply Rmult_le_pos; [apply Rmult_le_pos; lra|left; apply Rinv_0_lt_compat; lra]).
  assert (U1 : u < INR n).
  { unfold u. apply Rmult_lt_reg_r with (max - min); [lra|]. replace (INR n * (x - min) / (max - min) * (max - min)) with (INR n * (x - min)) by (field; lra). nra. }
  pose proof (int_part_spec u) as K. assert (Z0 : (0 <= Int_part u)%Z) by (apply Z.lt_succ_r, lt_IZR; unfold Z.succ; rewrite plus_IZR; lra).
  assert (E : INR (Z.to_nat (Int_part u)) = IZR (Int_part u)) by (rewrite INR_IZR_INZ, Z2Nat.id by exact Z0; reflexivity).
  assert (Z1 : (Z.to_nat (Int_part u) < n)%nat) by (apply INR_lt; lra).
  apply inside; [lia|]. apply in_bin_scaled; [assumption..|]. fold u. rewrite S_INR. lra.
Qed.
Lemma cell_unique n min max x b c : (0 < n)%nat -> min < max -> cell n min max x b -> cell n min max x c -> b = c.
Proof.
  intros Hn Hm. assert (R : forall b, (1 <= b <= n)%nat -> in_bin n min max b x -> min <= x < max).
  { intros k Hk [A B]. pose proof (lt_INR _ _ Hn) as Hn'. change (INR 0) with 0 in Hn'. destruct Hk as [K1 K2]. apply le_INR in K1, K2. change (INR 1) with 1 in K1.
    set (w := (max - min) / INR n) in *. assert (W : 0 < w) by (apply Rdiv_lt_0_compat; lra). assert (E : max = min + INR n * w) by (unfold w; field; lra). nra. }
  intros H K. destruct H as [H|H|b Hb H], K as [K|K|c Hc K]; try reflexivity; try lra.
  - pose proof (R c Hc K). lra.
  - pose proof (R c Hc K). lra.
  - pose proof (R b Hb H). lra.
  - pose proof (R b Hb H). lra.
  - apply in_bin_scaled in H, K; [|assumption..]. set (u := INR n * _ / _) in *.
    assert (A : (b < S c)%nat) by (apply INR_lt; rewrite S_INR; lra). assert (B : (c < S b)%nat) by (apply INR_lt; rewrite S_INR; lra). lia.
Qed.

(** ** Sums *)
Lemma total_app {A} (f : A -> R) a b : total f (a ++ b) = total f a + total f b.
Proof. induction a as [|x a IH]; cbn [total app]; [lra|]. rewrite IH. lra. Qed.
Lemma total_ext {A} (f g : A -> R) l : (forall x, In x l -> f x = g x) -> total f l = total g l.
Proof. induction l as [|x l IH]; intro H; [reflexivity|]. cbn [total]. rewrite H, IH by (now left || (intros; apply H; now right)). reflexivity. Qed.
Lemma total_scale {A} c (f : A -> R) l : total (fun x => c * f x) l = c * total f l.
Proof. induction l as [|x l IH]; cbn [total]; [lra|]. rewrite IH. lra. Qed.
Lemma total_plus {A} (f g : A -> R) l : total (fun x => f x + g x) l = total f l + total g l.
Proof. induction l as [|x l IH]; cbn [total]; [lra|]. rewrite IH. lra. Qed.
Lemma total_zero {A} (l : list A) : total (fun _ => 0) l = 0.
Proof. induction l as [|x l IH]; cbn [total]; [reflexivity|]. rewrite IH. lra. Qed.
Lemma total_perm {A} (f : A -> R) l l' : Permutation l l' -> total f l = total f l'.
Proof. induction 1; cbn [total]; lra. Qed.
Lemma total_swap {A B} (f : A -> B -> R) l m : total (fun x => total (f x) m) l = total (fun y => total (fun x => f x y) l) m.
Proof. induction l as [|x l IH]; cbn [total]; [now rewrite total_zero|]. rewrite IH, total_plus. reflexivity. Qed.
Lemma total_map {A B} (g : A -> B) (f : B -> R) l : total f (map g l) = total (fun x => f (g x)) l.
Proof. induction l as [|x l IH]; cbn [total map]; [reflexivity|]. now rewrite IH. Qed.
Lemma fold_total {A} (f : A -> R) l a : fold_left (fun t h => t + f h) l a = a + total f l.
Proof. revert a. induction l as [|x l IH]; intro a; cbn [fold_left total]; [lra|]. rewrite IH. lra. Qed.
Lemma upto_scale c h n : upto (Scale c h) n = c * upto h n.
Proof. induction n as [|n IH]; cbn [upto]; [lra|]. rewrite IH. unfold Scale. lra. Qed.
Lemma total_upto {A} (h : A -> hist) l n : total (fun x => upto (h x) n) l = upto (fun b => total (fun x => h x b) l) n.
Proof. induction n as [|n IH]; cbn [upto]; [apply total_zero|]. rewrite total_plus, IH. reflexivity. Qed.
Lemma upto_ext g h n : (forall b, g b = h b) -> upto g n = upto h n.
Proof. intro H. induction n as [|n IH]; cbn [upto]; [reflexivity|]. now rewrite IH, H. Qed.

Lemma upto_total h n : upto h n = total h (seq 1 n).
Proof. induction n as [|n IH]; [reflexivity|]. rewrite seq_S, total_app. cbn [upto total]. rewrite IH. cbn [Nat.add]. lra. Qed.

(** ** Sorting *)
Lemma insert_perm n x l : Permutation (insert n x l) (x :: l).
Proof.
  induction l as [|y l IH]; cbn [insert]; [apply Permutation_refl|]. destruct (Rlt_dec _ _); [|apply Permutation_refl].
  rewrite IH. apply perm_swap.
Qed.
Lemma sort_perm n l : Permutation (sort n l) l.
Proof. induction l as [|x l IH]; cbn [sort fold_right]; [constructor|]. fold (sort n l). rewrite insert_perm. now constructor. Qed.

Section Events.
  Variables (E : Type) (weight genPdf : E -> R).
  Local Notation bin := (bin E).
  Lemma fold_fill p (cut : option (E -> bool)) (v : E -> R) b : forall events h,
    fold_left (fun h e => if passes E cut e then Fill h (bin p e) (v e) else h) events h b
    = h b + total v (filter (fun e => (passes E cut e && (bin p e =? b)%nat)%bool) events).
  Proof.
    induction events as [|e events IH]; intro h; cbn [fold_left filter total]; [lra|]. rewrite IH.
    destruct (passes E cut e); cbn [andb]; [|lra]. unfold Fill. rewrite (Nat.eqb_sym b (bin p e)).
    destruct (bin p e =? b)%nat; cbn [total]; lra.
  Qed.
  Lemma fill_each_ok b e : forall ws hs, List.length ws = List.length hs ->
    exists hs', fill_each E weight genPdf b e ws hs = Ok hs' /\ Forall2 (fun wh h' => fst h' = fst (snd wh) /\ forall k, snd h' k = Fill (snd (snd wh)) b (weight e * fst wh / genPdf e) k) (combine ws hs) hs'.
  Proof.
    induction ws as [|w ws IH]; intros [|[k h] hs] L; try discriminate L.
    - exists []. split; [reflexivity|constructor].
    - cbn [List.length] in L. destruct (IH hs) as (hs' & H & F); [lia|]. cbn [fill_each]. rewrite H. cbn [bind]. eexists. split; [reflexivity|].
      cbn [combine]. constructor; [|exact F]. split; reflexivity.
  Qed.
  (** What the histogram of the function f has in cell b. *)
  Definition content p cut (f : E -> R) (b : nat) (events : list E) : R :=
    total (fun e => weight e * f e / genPdf e) (filter (fun e => (passes E cut e && (bin p e =? b)%nat)%bool) events).
  Lemma fill_events_ok p cut fs : forall events hs, List.length fs = List.length hs ->
    exists hs', fill_events E weight genPdf p cut fs events hs = Ok hs' /\
      Forall2 (fun fh h' => fst h' = fst (snd fh) /\ forall b, snd h' b = snd (snd fh) b + content p cut (snd (fst fh)) b events) (combine fs hs) hs'.
  Proof.
    induction events as [|e events IH]; intros hs L.
    - exists hs. split; [reflexivity|]. unfold content. cbn [filter total]. revert hs L.
      induction fs as [|f fs IHf]; intros [|h hs] L; try discriminate L; constructor; [split; [reflexivity|intro; cbn; lra]|].
      apply IHf. now injection L.
    - cbn [fill_events]. destruct (passes E cut e) eqn:P.
      + destruct (fill_each_ok (bin p e) e (map (fun f => snd f e) fs) hs) as (h1 & H1 & F1); [now rewrite map_length|]. rewrite H1. cbn [bind].
        assert (L1 : List.length fs = List.length h1).
        { clear - F1 L. apply forall2_length in F1. rewrite combine_length, map_length in F1. rewrite <- L, Nat.min_id in F1. exact F1. }
        destruct (IH h1 L1) as (h2 & H2 & F2). exists h2. split; [exact H2|].
        clear H1 H2 IH. revert hs h1 h2 L L1 F1 F2. induction fs as [|f fs IHf]; intros [|h hs] [|x h1] h2 L L1 F1 F2; try discriminate L; try discriminate L1.
        * cbn [combine] in *. inversion F2; subst. constructor.
        * cbn [combine map] in *. inversion F1 as [|? ? ? ? A1 B1]; subst. inversion F2 as [|? y ? h2' A2 B2]; subst. constructor.
          -- cbn [fst snd] in *. destruct A1 as [N1 C1], A2 as [N2 C2]. split; [exact (eq_trans N2 N1)|]. intro b. rewrite C2, C1. unfold Fill, content.
             cbn [filter]. rewrite P. cbn [andb]. rewrite (Nat.eqb_sym b (bin p e)). destruct (bin p e =? b)%nat; cbn [total]; lra.
          -- apply (IHf hs h1 h2'); [now injection L|now injection L1|assumption|assumption].
      + destruct (IH hs L) as (h2 & H2 & F2). exists h2. split; [exact H2|]. clear - F2 P. eapply forall2_weaken; [|exact F2].
        intros x y [A B]. split; [exact A|]. intro b. rewrite B. unfold content. cbn [filter]. rewrite P. reflexivity.
  Qed.
End Events.
