(** The adaptive integration as a whole. *)
From Verif.Common Require Import Prelude.
From Coq Require Import Reals Lra Permutation.
From Verif.Integrate Require Import Model Spec HeapProofs LoopProofs RuleProofs.
Local Open Scope R_scope.

Definition r_val (x : res (R * R * nat)) : R := match x with Ok (v, _, _) => v | _ => 0 end.
Definition r_err (x : res (R * R * nat)) : R := match x with Ok (_, e, _) => e | _ => 0 end.
Definition r_axis (x : res (R * R * nat)) : nat := match x with Ok (_, _, j) => j | _ => 0%nat end.
Lemma range (P : nat -> Prop) n : (2 <= n <= 15)%nat -> P 2%nat -> P 3%nat -> P 4%nat -> P 5%nat -> P 6%nat -> P 7%nat -> P 8%nat -> P 9%nat -> P 10%nat -> P 11%nat -> P 12%nat -> P 13%nat -> P 14%nat -> P 15%nat -> P n.
Proof. intros D. intros. do 16 (destruct n as [|n]; [try lia; assumption|]). lia. Qed.
Lemma points_of n : (2 <= n <= 15)%nat -> (17 <= points n <= 33249)%Z.
Proof. intro D. pattern n. apply range; [exact D|..]; vm_compute; split; discriminate. Qed.
Lemma size_of n : (2 <= n <= 15)%nat -> (2 <= size n)%nat.
Proof. intro D. unfold size. assert (E : (2 <= (1 + maxpts / irlcls n) / 2)%Z); [|lia]. pattern n. apply range; [exact D|..]; vm_compute; discriminate. Qed.
Section Top.
  Variable C : constants.
  Variable F : list R -> R.
  Variable dim : nat.
  Hypothesis D : (2 <= dim <= 15)%nat.
  Hypothesis T : (14 <= List.length (wn1 C) /\ 14 <= List.length (wn3 C) /\ 14 <= List.length (wn5 C) /\ 14 <= List.length (wpn1 C) /\ 14 <= List.length (wpn3 C))%nat.
  Definition val (r : region) := r_val (integrate_fp C F dim (fst r) (snd r)).
  Definition err (r : region) := r_err (integrate_fp C F dim (fst r) (snd r)).
  Definition axis (r : region) := r_axis (integrate_fp C F dim (fst r) (snd r)).
  Lemma entry_some (l : list R) : (14 <= List.length l)%nat -> exists x, nth_error l (dim - 2) = Some x.
  Proof. intro L. destruct (nth_error l (dim - 2)) as [x|] eqn:E; [now exists x|]. apply nth_error_None in E. lia. Qed.
  Lemma rule_total r : sized dim r -> integrate_fp C F dim (fst r) (snd r) = Ok (val r, err r, axis r) /\ (axis r < dim)%nat /\ 0 <= err r /\
    forall j, (j < dim)%nat -> bend (xl2 C) (xl4 C) F (fst r) (snd r) j <= bend (xl2 C) (xl4 C) F (fst r) (snd r) (axis r).
  Proof.
    intros (Hc & Hw). destruct T as (T1 & T3 & T5 & P1 & P3). destruct (entry_some _ T1) as (n1 & N1), (entry_some _ T3) as (n3 & N3), (entry_some _ T5) as (n5 & N5), (entry_some _ P1) as (p1 & Q1), (entry_some _ P3) as (p3 & Q3).
    destruct (rule_value C F dim (fst r) (snd r) Hc Hw p1 p3 n1 n3 n5 (proj1 D) Q1 Q3 N1 N3 N5) as (ax & E & L & B). cbn zeta in E. unfold val, err, axis. rewrite E. cbn [r_val r_err r_axis]. split; [reflexivity|]. split; [exact L|]. split; [apply Rabs_pos|exact B].
  Qed.
  Lemma irl_points : irlcls dim = points dim. Proof. reflexivity. Qed.
  Lemma points_range : (17 <= points dim <= 33249)%Z.
  Proof. apply (points_of dim D). Qed.
  Lemma size_range : (2 <= size dim)%nat.
  Proof. apply (size_of dim D). Qed.
  Lemma centre_box lo hi : List.length lo = dim -> List.length hi = dim ->
    (map (fun j => (nth j hi 0 + nth j lo 0) * (1 / 2)) (seq 0 dim), map (fun j => (nth j hi 0 - nth j lo 0) * (1 / 2)) (seq 0 dim)) = box lo hi.
  Proof.
    clear. intros L H. unfold box. revert lo hi L H. induction dim as [|n IH]; intros [|x lo] [|y hi] L H; try discriminate; [reflexivity|].
    cbn in L, H. specialize (IH lo hi ltac:(lia) ltac:(lia)). injection IH as I1 I2. rewrite seq_succ. cbn [map combine fst snd nth]. rewrite !map_map. cbn [nth]. rewrite I1, I2. f_equal; f_equal; field.
  Qed.
  Lemma put_0 (x y : integral) n : put (repeat x (S n)) 0 y = Ok (y :: repeat x n). Proof. reflexivity. Qed.
  Lemma integrate_ok lo hi : List.length lo = dim -> List.length hi = dim -> exists r, integrate C dim F lo hi = Ok r /\ finished dim val err axis (box lo hi) (size dim) r.
  Proof.
    intros L H. unfold integrate. pose proof size_range as S2. set (n := size dim) in *. clearbody n. set (zero := Integral 0 0 0 _ _). destruct n as [|n]; [lia|]. rewrite put_0. cbn [bind]. set (e := set_ab _ _ zero). set (s0 := State _ _ _ _ _ _ _ _ _).
    assert (Eb : reg e = box lo hi) by (unfold reg, e, set_ab; cbn [a b]; apply centre_box; assumption).
    assert (Ls : List.length (slots s0) = S n) by (cbn; now rewrite repeat_length).
    assert (Rk : forall r, sized dim r -> integrate_fp C F dim (fst r) (snd r) = Ok (val r, err r, axis r) /\ (axis r < dim)%nat /\ 0 <= err r) by (intros r Sr; pose proof (rule_total r Sr); tauto).
    assert (Ip : (0 < irlcls dim)%Z) by (rewrite irl_points; pose proof points_range; lia).
    destruct (proj1 (loop_ok (integrate_fp C F dim) dim val err axis Rk Ip (box lo hi) (2 * S n + 2)) s0) as (r & E & Fi).
    - exists [box lo hi]. cbn zeta. cbn [ldv isbrgn isbrgs current result abserr ifncls s0 Nat.sub cells seq map]. rewrite Ls. unfold cells. cbn [seq map]. change (at_ (slots s0) 0) with e. rewrite Eb.
      repeat split; try lia; try reflexivity.
      + unfold box. cbn [fst]. rewrite map_length, combine_length. lia.
      + unfold box. cbn [snd]. rewrite map_length, combine_length. lia.
      + constructor.
      + intros i Hi. lia.
      + apply divided_not.
    - rewrite Ls. cbn. lia.
    - exists r. rewrite Ls in Fi. now split.
  Qed.
  Lemma finished_budget whole r : finished dim val err axis whole (size dim) r -> exists l, divided val err axis whole l /\ r = total val l /\ ((2 * Z.of_nat (List.length l) - 1) * points dim <= 10 ^ 6)%Z /\
    (good val err l /\ (1 < List.length l)%nat \/ (10 ^ 6 < (2 * Z.of_nat (List.length l) + 3) * points dim)%Z).
  Proof.
    intros (l & Dv & E & Lt & Fin). exists l. split; [exact Dv|]. split; [exact E|]. pose proof points_range as P. unfold size in *. rewrite irl_points in *. change maxpts with (10 ^ 6)%Z in *. set (p := points dim) in *. set (m := (10 ^ 6)%Z) in *. assert (Hm : (0 < m)%Z) by reflexivity. clearbody m.
    pose proof (Z.div_mod m p ltac:(lia)). pose proof (Z.mod_pos_bound m p ltac:(lia)). set (q := (m / p)%Z) in *. pose proof (Z.div_mod (1 + q) 2 ltac:(lia)). pose proof (Z.mod_pos_bound (1 + q) 2 ltac:(lia)). set (h := ((1 + q) / 2)%Z) in *.
    assert (Q0 : (0 <= q)%Z) by (apply Z.div_pos; lia). assert (Hh0 : (0 <= h)%Z) by (apply Z.div_pos; lia). split; [nia|]. destruct Fin as [G|[B|B]]; [now left|right|right]; nia.
  Qed.
  Lemma divided_sized whole l : sized dim whole -> divided val err axis whole l -> Forall (sized dim) l.
  Proof.
    intros S. induction 1 as [|l r rest Dv IH _ Pm _]; [now constructor|]. apply (Permutation_Forall Pm) in IH. apply Forall_cons_iff in IH as (Sr & Rest). constructor; [|constructor; [|exact Rest]]; unfold lower, upper, sized; cbn [fst snd]; rewrite !change_length; exact Sr.
  Qed.
  Lemma total_divided f whole l : sized dim whole -> (forall r j, sized dim r -> (j < dim)%nat -> f r = f (lower j r) + f (upper j r)) -> divided val err axis whole l -> total f l = f whole.
  Proof.
    intros S A. induction 1 as [|l r rest Dv IH _ Pm _]; [unfold total; cbn; lra|]. rewrite <- IH, (total_perm f _ _ Pm). unfold total. cbn [map fold_right].
    pose proof (divided_sized _ _ S Dv) as Sl. apply (Permutation_Forall Pm) in Sl. apply Forall_cons_iff in Sl as (Sr & _). rewrite (A r (axis r) Sr (proj1 (proj2 (rule_total r Sr)))). lra.
  Qed.
End Top.
Lemma total_ext f g l : (forall r, In r l -> f r = g r) -> total f l = total g l.
Proof. intro H. unfold total. f_equal. now apply map_ext_in. Qed.

(** ** Halves of a region *)
Lemma within_halves n : forall j c w x, List.length c = n -> List.length w = n -> (j < n)%nat -> Forall (fun y => 0 <= y) w ->
  within (c, w) x <-> within (lower j (c, w)) x \/ within (upper j (c, w)) x.
Proof.
  unfold within, lower, upper. cbn [fst snd]. induction n as [|n IH]; intros j [|c0 c] [|w0 w] x Hc Hw J W; try lia; try discriminate. apply Forall_cons_iff in W as (W0 & W). destruct j as [|j].
  - cbn [change nth combine]. split.
    + intro H. inversion H as [|x0 cw xs cws H0 H1]; subst. cbn [fst snd] in *. destruct (Rle_dec x0 c0) as [Q|Q]; [left|right]; (constructor; [|exact H1]); cbn [fst snd]; revert H0; unfold Rabs; repeat destruct Rcase_abs; lra.
    + intros [H|H]; inversion H as [|x0 cw xs cws H0 H1]; subst; (constructor; [|exact H1]); cbn [fst snd] in *; revert H0; unfold Rabs; repeat destruct Rcase_abs; lra.
  - cbn [change nth combine]. split.
    + intro H. inversion H as [|x0 cw xs cws H0 H1]; subst. apply (IH j c w xs) in H1; [|cbn in *; lia|cbn in *; lia|lia|exact W]. destruct H1 as [H1|H1]; [left|right]; constructor; assumption.
    + intros [H|H]; inversion H as [|x0 cw xs cws H0 H1]; subst; (constructor; [exact H0|]); apply (IH j c w xs); try (cbn in *; lia); try exact W; [now left|now right].
Qed.
Lemma inside_halves n : forall j c w x, List.length c = n -> List.length w = n -> (j < n)%nat -> Forall (fun y => 0 <= y) w ->
  (inside (lower j (c, w)) x \/ inside (upper j (c, w)) x -> inside (c, w) x) /\ ~ (inside (lower j (c, w)) x /\ inside (upper j (c, w)) x).
Proof.
  unfold inside, lower, upper. cbn [fst snd]. induction n as [|n IH]; intros j [|c0 c] [|w0 w] x Hc Hw J W; try lia; try discriminate. apply Forall_cons_iff in W as (W0 & W). destruct j as [|j].
  - cbn [change nth combine]. split.
    + intros [H|H]; inversion H as [|x0 cw xs cws H0 H1]; subst; (constructor; [|exact H1]); cbn [fst snd] in *; revert H0; unfold Rabs; repeat destruct Rcase_abs; lra.
    + intros [H H']. inversion H as [|x0 cw xs cws H0 H1]; subst. inversion H' as [|x0' cw' xs' cws' H0' H1']; subst. cbn [fst snd] in *. revert H0 H0'. unfold Rabs. repeat destruct Rcase_abs; lra.
  - cbn [change nth combine]. split.
    + intros [H|H]; inversion H as [|x0 cw xs cws H0 H1]; subst; (constructor; [exact H0|]); apply (IH j c w xs); try (cbn in *; lia); try exact W; [now left|now right].
    + intros [H H']. inversion H as [|x0 cw xs cws H0 H1]; subst. inversion H' as [|x0' cw' xs' cws' H0' H1']; subst. apply (proj2 (IH j c w xs ltac:(cbn in *; lia) ltac:(cbn in *; lia) ltac:(lia) W)). now split.
Qed.
Lemma change_nonneg j w : Forall (fun y => 0 <= y) w -> Forall (fun y => 0 <= y) (change (fun y => y / 2) j w).
Proof. intro H. revert j. induction H as [|y w Y H IH]; intros [|j]; cbn; constructor; auto; lra. Qed.

(** no point is inside two of them, as a relation that does not depend on the order *)
Definition apart (l : list region) : Prop := ForallOrdPairs (fun r r' => forall x, ~ (inside r x /\ inside r' x)) l.
Lemma apart_perm l l' : Permutation l l' -> apart l -> apart l'.
Proof.
  unfold apart. set (R := fun r r' => forall x, ~ (inside r x /\ inside r' x)). assert (Sy : forall r r', R r r' -> R r' r) by (unfold R; intros r r' H x [A B]; apply (H x); now split).
  induction 1 as [|r l l' P IH|r r' l|l m p P1 IH1 P2 IH2]; intro H; [exact H| | |auto].
  - inversion H as [|? ? F1 F2]; subst. constructor; [now apply (Permutation_Forall P)|auto].
  - inversion H as [|? ? F1 F2]; subst. inversion F2 as [|? ? G1 G2]; subst. apply Forall_cons_iff in F1 as (F0 & F1). constructor; [constructor; auto|constructor; auto].
Qed.
Section Tiles.
  Variable n : nat.
  Variable val err : region -> R.
  Variable axis : region -> nat.
  Hypothesis axis_ok : forall r, sized n r -> (axis r < n)%nat.
  Definition proper (r : region) : Prop := sized n r /\ Forall (fun y => 0 <= y) (snd r).
  Lemma divided_tiles whole l : proper whole -> divided val err axis whole l -> Forall proper l /\ (forall x, within whole x <-> exists r, In r l /\ within r x) /\ apart l.
  Proof.
    intros Pw. induction 1 as [|l r rest Dv (IP & IW & IA) _ Pm _].
    - split; [now constructor|]. split; [|constructor; constructor]. intro x. split; [intro H; exists whole; split; [now left|exact H]|intros (r & [<- |[]] & H); exact H].
    - apply (Permutation_Forall Pm) in IP. apply Forall_cons_iff in IP as (Pr & Rest). apply (apart_perm _ _ Pm) in IA. inversion IA as [|? ? F1 F2]; subst. destruct r as [c w]. destruct Pr as ((Hc & Hw) & W). pose proof (axis_ok (c, w) (Logic.conj Hc Hw)) as J. cbn [fst snd] in *. set (j := axis (c, w)) in *.
      split; [|split].
      + constructor; [|constructor; [|exact Rest]]; (split; [unfold lower, upper, sized; cbn [fst snd]; rewrite !change_length; now split|]); cbn [lower upper snd]; now apply change_nonneg.
      + intro x. rewrite IW. split.
        * intros (r & I & H). apply (Permutation_in _ Pm) in I. destruct I as [<- |I]; [|exists r; split; [now right; right|exact H]]. apply (within_halves n j c w x Hc Hw J W) in H as [H|H]; [exists (lower j (c, w))|exists (upper j (c, w))]; split; auto; [now left|right; now left].
        * intros (r & [<- |[<- |I]] & H).
          -- exists (c, w). split; [apply (Permutation_in _ (Permutation_sym Pm)); now left|]. apply (within_halves n j c w x Hc Hw J W). now left.
          -- exists (c, w). split; [apply (Permutation_in _ (Permutation_sym Pm)); now left|]. apply (within_halves n j c w x Hc Hw J W). now right.
          -- exists r. split; [|exact H]. apply (Permutation_in _ (Permutation_sym Pm)). now right.
      + rewrite Forall_forall in F1. constructor; [|constructor; [|exact F2]].
        * constructor; [intro x; apply (proj2 (inside_halves n j c w x Hc Hw J W))|]. apply Forall_forall. intros r Ir x [A B]. apply (F1 r Ir x). split; [|exact B]. apply (proj1 (inside_halves n j c w x Hc Hw J W)). now left.
        * apply Forall_forall. intros r Ir x [A B]. apply (F1 r Ir x). split; [|exact B]. apply (proj1 (inside_halves n j c w x Hc Hw J W)). now right.
  Qed.
  Lemma apart_app l1 l2 l3 r r' : apart (l1 ++ r :: l2 ++ r' :: l3) -> forall x, ~ (inside r x /\ inside r' x).
  Proof.
    induction l1 as [|s l1 IH]; intro H; cbn in H; inversion H as [|? ? F1 F2]; subst; [|auto]. rewrite Forall_forall in F1. apply F1. apply in_or_app. right. now left.
  Qed.
  Lemma tiles_ok whole l : proper whole -> divided val err axis whole l -> tiles whole l.
  Proof. intros P H. destruct (divided_tiles _ _ P H) as (_ & W & A). split; [exact W|]. intros l1 l2 l3 r r' x -> I I'. apply (apart_app l1 l2 l3 r r' A x). now split. Qed.
End Tiles.
