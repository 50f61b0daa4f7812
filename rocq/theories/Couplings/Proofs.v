From Verif.Couplings Require Import Model Spec.
From Coq Require Import FinFun.
Open Scope Z_scope.

Lemma upto_in a b k x : 0 < k -> In x (upto a b k) <-> a <= x <= b /\ (x - a) mod k = 0.
Proof.
  intro K. unfold upto. rewrite in_map_iff. split.
  - intros (i & <- & I). apply in_seq in I. assert (Z.of_nat i < (b - a) / k + 1) by lia.
    assert (k * Z.of_nat i <= b - a). { transitivity (k * ((b - a) / k)); [apply Z.mul_le_mono_nonneg_l; lia|apply Z.mul_div_le; lia]. }
    split; [nia|]. replace (a + k * Z.of_nat i - a) with (Z.of_nat i * k) by ring. apply Z.mod_mul. lia.
  - intros [[H1 H2] M]. apply Z.mod_divide in M as [q Q]; [|lia]. exists (Z.to_nat q). assert (0 <= q) by nia. split; [rewrite Z2Nat.id by lia; lia|].
    apply in_seq. split; [lia|]. cbn. apply Z2Nat.inj_lt; [lia| |].
    + assert (0 <= (b - a) / k) by (apply Z.div_pos; lia). lia.
    + assert (q <= (b - a) / k) by (apply Z.div_le_lower_bound; lia). lia.
Qed.
Lemma upto_nodup a b k : 0 < k -> NoDup (upto a b k).
Proof. intro K. unfold upto. apply Injective_map_NoDup; [|apply seq_NoDup]. intros i j H. nia. Qed.
Lemma upto_in1 a b x : In x (upto a b 1) <-> a <= x <= b.
Proof. rewrite upto_in by lia. rewrite Z.mod_1_r. tauto. Qed.

Lemma minabs_le S l m : fold_left (fun m i => Z.min m (Z.abs (S - i))) l m <= m /\ forall i, In i l -> fold_left (fun m i => Z.min m (Z.abs (S - i))) l m <= Z.abs (S - i).
Proof.
  revert m; induction l as [|x r IH]; intro m; cbn [fold_left]; [split; [lia|intros i []]|].
  destruct (IH (Z.min m (Z.abs (S - x)))) as [H1 H2]. split; [lia|]. intros i [<- | I]; [lia|auto].
Qed.
Lemma minabs_ge S l m : fold_left (fun m i => Z.min m (Z.abs (S - i))) l m = m \/ exists i, In i l /\ fold_left (fun m i => Z.min m (Z.abs (S - i))) l m = Z.abs (S - i).
Proof.
  revert m; induction l as [|x r IH]; intro m; cbn [fold_left]; [now left|].
  destruct (IH (Z.min m (Z.abs (S - x)))) as [H | (i & I & E)].
  - rewrite H. destruct (Z.min_spec m (Z.abs (S - x))) as [[_ ->] | [_ ->]]; [now left|]. right. exists x. split; [now left|reflexivity].
  - right. exists i. split; [now right|exact E].
Qed.

(** The range of L in terms of distances. *)
Lemma range_ok p d1 d2 l : spins_ok p d1 d2 -> statistics_ok p d1 d2 ->
  (fst (range p d1 d2) <= l <= snd (range p d1 d2) <-> exists S, allowed (twoSpin p) (twoSpin d1) (twoSpin d2) l S).
Proof.
  destruct p as [J pp], d1 as [s1 p1], d2 as [s2 p2]. unfold spins_ok, statistics_ok, range, allowed, triangle. cbn [twoSpin]. intros (HJ & H1 & H2) E.
  set (a := Z.abs (s1 - s2)). set (b := Z.abs (s1 + s2)).
  assert (Ev : Z.even (a + b) = true /\ Z.even (J + b) = true).
  { apply Z.even_spec in E as [k Hk]. rewrite !Z.even_spec. unfold a, b. split; [destruct (Z.le_ge_cases s1 s2); [exists s2|exists s1]; lia|exists k; lia]. }
  destruct Ev as [Ev1 Ev2]. assert (Hb : b = s1 + s2) by (unfold b; lia). assert (Ha : 0 <= a <= b) by (unfold a, b; lia).
  destruct (minabs_le J (upto a b 1) (Z.abs (J - a))) as [M1 M2]. pose proof (minabs_ge J (upto a b 1) (Z.abs (J - a))) as M3.
  set (m := fold_left _ _ _) in *. cbn [fst snd].
  (* m is the distance from J to [a,b] *)
  assert (Mm : m = if Z.ltb J a then a - J else if Z.ltb b J then J - b else 0).
  { assert (Mi : exists i, a <= i <= b /\ m = Z.abs (J - i)).
    { destruct M3 as [-> | (i & I & ->)]; [exists a; split; [lia|reflexivity]|]. apply upto_in1 in I. exists i. auto. }
    assert (Ml : forall i, a <= i <= b -> m <= Z.abs (J - i)) by (intros i Hi; apply M2; now apply upto_in1).
    clear M1 M2 M3. clearbody m. destruct Mi as (i & Hi & Mi). destruct (Z.ltb_spec J a); [specialize (Ml a); lia|]. destruct (Z.ltb_spec b J); [specialize (Ml b); lia|].
    specialize (Ml J). lia. }
  clear M1 M2 M3. clearbody m.
  assert (Q1 : Z.quot m 2 * 2 = m).
  { apply Z.even_spec in Ev1 as [k1 K1], Ev2 as [k2 K2]. assert (D : exists q, m = q * 2).
    { destruct (Z.ltb J a); [|destruct (Z.ltb b J)]; [exists (k1 - k2)|exists (k2 - b)|exists 0]; lia. }
    destruct D as [q ->]. rewrite Z.quot_mul by lia. lia. }
  assert (Q2 : Z.quot (Z.abs (J + b)) 2 * 2 = J + b).
  { apply Z.even_spec in Ev2 as [k2 K2]. rewrite Z.abs_eq by lia. replace (J + b) with (k2 * 2) by lia. rewrite Z.quot_mul by lia. lia. }
  split.
  - intros [L1 L2]. assert (L1' : m <= 2 * l) by lia. assert (L2' : 2 * l <= J + b) by lia. assert (0 <= m) by (destruct (Z.ltb_spec J a); [|destruct (Z.ltb_spec b J)]; lia).
    exists (Z.max a (Z.abs (J - 2 * l))). apply Z.even_spec in Ev1 as [k1 K1], Ev2 as [k2 K2].
    split; [lia|]. rewrite <- Hb. destruct (Z.max_spec a (Z.abs (J - 2 * l))) as [[X ->] | [X ->]].
    + split; split; [destruct (Z.ltb_spec J a); [|destruct (Z.ltb_spec b J)]; lia| |lia|].
      * apply Z.even_spec. destruct (Z.abs_spec (J - 2 * l)) as [[_ ->] | [_ ->]]; [exists (k2 - l)|exists (l + b - k2)]; lia.
      * apply Z.even_spec. destruct (Z.abs_spec (J - 2 * l)) as [[_ ->] | [_ ->]]; [exists J|exists (2 * l)]; lia.
    + split; split; [lia|apply Z.even_spec; exists k1; lia| |].
      * destruct (Z.ltb_spec J a); [|destruct (Z.ltb_spec b J)]; lia.
      * apply Z.even_spec. exists (l + k1 + k2 - b). lia.
  - intros (S & L0 & [T1 _] & [T2 _]). fold a in T1. rewrite <- Hb in T1. split; [|lia]. assert (m <= 2 * l) by (destruct (Z.ltb_spec J a); [|destruct (Z.ltb_spec b J)]; lia). lia.
Qed.

Lemma pow_m1 L : 0 <= L -> (-1) ^ L = if Z.eqb (Z.rem L 2) 0 then 1 else -1.
Proof.
  intro H. rewrite Z.rem_mod_nonneg by lia. rewrite Zmod_odd. destruct (Z.odd L) eqn:O.
  - apply Z.odd_spec in O as [k ->]. rewrite Z.pow_add_r, Z.pow_mul_r by lia. replace ((-1) ^ 2) with 1 by reflexivity. rewrite Z.pow_1_l by lia. reflexivity.
  - rewrite <- Z.negb_even in O. apply negb_false_iff, Z.even_spec in O as [k ->]. rewrite Z.pow_mul_r by lia. replace ((-1) ^ 2) with 1 by reflexivity. rewrite Z.pow_1_l by lia. reflexivity.
Qed.
Lemma conserves_ok p d1 d2 L : 0 <= L -> (conservesParity p d1 d2 L = true <-> parity_ok p d1 d2 L).
Proof. intro H. unfold conservesParity, parity_ok. rewrite Z.eqb_eq, pow_m1 by assumption. tauto. Qed.

Lemma range_nonneg p d1 d2 : 0 <= fst (range p d1 d2).
Proof.
  unfold range. cbn [fst]. match goal with |- context [fold_left ?f ?l ?m] => pose proof (minabs_ge (twoSpin p) l m) as [E | (i & _ & E)] end;
  rewrite E; apply Z.quot_pos; lia.
Qed.

Lemma find_split {A} (f : A -> bool) l x : find f l = Some x -> exists l1 l2, l = l1 ++ x :: l2 /\ f x = true /\ Forall (fun y => f y = false) l1.
Proof.
  induction l as [|y r IH]; cbn; [discriminate|]. destruct (f y) eqn:E.
  - injection 1 as <-. exists [], r. auto.
  - intro H. destruct (IH H) as (l1 & l2 & -> & F & Fl). exists (y :: l1), l2. auto.
Qed.
Lemma upto_sorted a b : forall l1 x l2, upto a b 1 = l1 ++ x :: l2 -> (forall y, In y l1 -> y < x) /\ (forall y, In y l2 -> x < y).
Proof.
  intros l1 x l2 H. assert (N : forall i v, nth_error (upto a b 1) i = Some v -> v = a + Z.of_nat i).
  { intros i v. unfold upto. intro E. rewrite nth_error_map in E. destruct (nth_error _ i) as [j|] eqn:Ej; [|discriminate]. assert (Ev : v = a + 1 * Z.of_nat j) by (unfold option_map in E; congruence). clear E.
    assert (i < List.length (seq 0 (Z.to_nat ((b - a) / 1 + 1))))%nat by (apply nth_error_Some; congruence). rewrite seq_length in H0.
    apply nth_error_nth with (d := 0%nat) in Ej. rewrite seq_nth in Ej by assumption. lia. }
  rewrite H in N. assert (X : x = a + Z.of_nat (List.length l1)).
  { apply N. rewrite nth_error_app2 by lia. rewrite Nat.sub_diag. reflexivity. }
  split; intros y I.
  - apply In_nth_error in I as [i I]. assert (i < List.length l1)%nat by (apply nth_error_Some; congruence). assert (y = a + Z.of_nat i) by (apply N; rewrite nth_error_app1; auto). lia.
  - apply In_nth_error in I as [i I]. assert (y = a + Z.of_nat (List.length l1 + S i)).
    { apply N. rewrite nth_error_app2 by lia. replace (List.length l1 + S i - List.length l1)%nat with (S i) by lia. exact I. } lia.
Qed.

Lemma find_least f a b l : find f (upto a b 1) = Some l -> least (fun x => a <= x <= b /\ f x = true) l.
Proof.
  intro H. apply find_split in H as (l1 & l2 & E & F & Fl). pose proof (upto_sorted a b l1 l l2 E) as [S1 S2].
  assert (In l (upto a b 1)) by (rewrite E; apply in_elt). apply upto_in1 in H. split; [auto|]. intros m [Hm Fm]. apply upto_in1 in Hm. rewrite E in Hm.
  apply in_app_or in Hm as [Hm | [<- | Hm]]; [|lia|apply S2 in Hm; lia]. rewrite Forall_forall in Fl. apply Fl in Hm. congruence.
Qed.
Lemma find_greatest f a b l : find f (rev (upto a b 1)) = Some l -> greatest (fun x => a <= x <= b /\ f x = true) l.
Proof.
  intro H. apply find_split in H as (l1 & l2 & E & F & Fl). assert (E' : upto a b 1 = rev l2 ++ l :: rev l1).
  { rewrite <- (rev_involutive (upto a b 1)), E, rev_app_distr. cbn. now rewrite <- app_assoc. }
  pose proof (upto_sorted a b _ l _ E') as [S1 S2].
  assert (In l (upto a b 1)) by (rewrite E'; apply in_elt). apply upto_in1 in H. split; [auto|]. intros m [Hm Fm]. apply upto_in1 in Hm. rewrite E' in Hm.
  apply in_app_or in Hm as [Hm | [<- | Hm]]; [apply S1 in Hm; lia|lia|]. apply in_rev in Hm. rewrite Forall_forall in Fl. apply Fl in Hm. congruence.
Qed.

Lemma orbitalRange_parity p d1 d2 : spins_ok p d1 d2 -> statistics_ok p d1 d2 ->
  let Q L := (exists S, allowed (twoSpin p) (twoSpin d1) (twoSpin d2) L S) /\ parity_ok p d1 d2 L in
  (exists lo hi, orbitalRange p [d1; d2] true = (lo, hi) /\ least Q lo /\ greatest Q hi) \/
  (orbitalRange p [d1; d2] true = (999, 999) /\ forall L, ~ Q L).
Proof.
  intros H E Q. pose proof (range_ok p d1 d2) as R. pose proof (range_nonneg p d1 d2) as N. unfold orbitalRange. destruct (range p d1 d2) as [mi ma] eqn:Er. cbn [fst snd negb] in *.
  assert (HQ : forall x, Q x <-> mi <= x <= ma /\ conservesParity p d1 d2 x = true).
  { intro x. unfold Q. rewrite <- (R x H E). split; intros [A B]; (split; [assumption|]); apply conserves_ok; auto; lia. }
  destruct (find _ (upto mi ma 1)) as [l|] eqn:F.
  - left. destruct (find _ (rev (upto mi ma 1))) as [l'|] eqn:F'.
    + exists l, l'. split; [reflexivity|]. apply find_least in F as [F1 F2]. apply find_greatest in F' as [F3 F4].
      split; split; try (now apply HQ); intros m Hm; apply HQ in Hm; auto.
    + exfalso. apply find_some in F as [F1 F2]. apply in_rev in F1. apply (find_none _ _ F') in F1. congruence.
  - right. split; [reflexivity|]. intros L HL. apply HQ in HL as [HL1 HL2]. apply upto_in1 in HL1. apply (find_none _ _ F) in HL1. congruence.
Qed.

Lemma cosine J L S : 0 <= J -> 0 <= L -> 0 <= S ->
  (negb (Z.eqb L 0) && negb (Z.eqb S 0) && Z.leb (Z.abs (J * J - L * L - S * S)) (2 * L * S) = true \/
   (Z.eqb L 0 || Z.eqb S 0) && Z.eqb (J * J - L * L - S * S) 0 = true) <-> Z.abs (L - S) <= J <= L + S.
Proof.
  intros HJ HL HS. rewrite !andb_true_iff, orb_true_iff, !negb_true_iff, !Z.eqb_neq, !Z.eqb_eq, Z.leb_le. split.
  - intros [[[A B] C] | [[A|A] B]]; [|subst L; nia|subst S; nia]. nia.
  - intro T. destruct (Z.eq_dec L 0) as [A | A]; [right; subst L; assert (J = S) by lia; subst; split; [auto|ring]|].
    destruct (Z.eq_dec S 0) as [B | B]; [right; subst S; assert (J = L) by lia; subst; split; [auto|ring]|].
    left. split; [auto|]. nia.
Qed.

Definition entries J l S : list (Z * Z) :=
  (if negb (Z.eqb (2 * l) 0) && negb (Z.eqb S 0) && Z.leb (Z.abs (J * J - 2 * l * (2 * l) - S * S)) (2 * (2 * l) * S) then [(2 * l, S)] else []) ++
  (if (Z.eqb (2 * l) 0 || Z.eqb S 0) && Z.eqb (J * J - 2 * l * (2 * l) - S * S) 0 then [(2 * l, S)] else []).
Lemma entries_in J l S x : 0 <= J -> 0 <= l -> 0 <= S -> In x (entries J l S) <-> x = (2 * l, S) /\ Z.abs (2 * l - S) <= J <= 2 * l + S.
Proof.
  intros HJ Hl HS. pose proof (cosine J (2 * l) S HJ ltac:(lia) HS) as C. unfold entries. rewrite in_app_iff.
  destruct (negb _ && _ && _), ((_ || _) && _); cbn; split; intros; intuition (try congruence; try discriminate).
Qed.
Lemma entries_one J l S : NoDup (entries J l S).
Proof.
  unfold entries. destruct (Z.eqb (2 * l) 0), (Z.eqb S 0), (Z.leb _ _), (Z.eqb _ 0); cbn; repeat (constructor; cbn; auto).
Qed.

Lemma flat_map_nodup {A B} (f : A -> list B) (g : B -> A) l : NoDup l -> (forall a, In a l -> NoDup (f a)) -> (forall a b, In a l -> In b (f a) -> g b = a) -> NoDup (flat_map f l).
Proof.
  induction l as [|a r IH]; intros N F G; cbn; [constructor|]. inversion N; subst.
  assert (NoDup_append : forall l1 l2 : list B, NoDup l1 -> NoDup l2 -> (forall x, In x l1 -> ~ In x l2) -> NoDup (l1 ++ l2)).
  { clear. induction l1 as [|x t IH]; intros l2 N1 N2 D; cbn; [assumption|]. inversion N1; subst. constructor.
    - rewrite in_app_iff. intros [I | I]; [auto|]. apply (D x); [now left|assumption].
    - apply IH; auto. intros y Hy. apply D. now right. }
  apply NoDup_append.
  - apply F. now left.
  - apply IH; auto; intros; [apply F|apply G]; auto; now right.
  - intros x Hx Hr. apply in_flat_map in Hr as (a' & Ha' & Hx'). assert (g x = a) by (apply G; [now left|assumption]). assert (g x = a') by (apply G; [now right|assumption]). congruence.
Qed.

Lemma couplings_ok p d1 d2 c : spins_ok p d1 d2 -> statistics_ok p d1 d2 ->
  exists l, spinOrbitCouplings p [d1; d2] c = Ok l /\ NoDup l /\
    forall x S, In (x, S) l <-> exists L, x = 2 * L /\ allowed (twoSpin p) (twoSpin d1) (twoSpin d2) L S /\ (c = true -> parity_ok p d1 d2 L).
Proof.
  intros H E. unfold spinOrbitCouplings. destruct (orbitalRange p [d1; d2] c) as [lo hi] eqn:Er. eexists. split; [reflexivity|].
  match goal with |- NoDup (flat_map ?f ?l) /\ _ => set (F := f) end.
  assert (HF : forall l, F l = if c && negb (conservesParity p d1 d2 l) then [] else flat_map (entries (twoSpin p) l) (upto (Z.abs (twoSpin d1 - twoSpin d2)) (twoSpin d1 + twoSpin d2) 2)) by reflexivity.
  clearbody F. destruct H as (HJ & H1 & H2).
  assert (Lo : 0 <= lo).
  { unfold orbitalRange in Er. pose proof (range_nonneg p d1 d2). destruct (range p d1 d2) as [mi ma]. cbn [fst] in *. destruct c; cbn [negb] in Er; [|injection Er as <- _; assumption].
    destruct (find _ _) as [l|] eqn:Fl; [|injection Er as <- _; lia]. apply find_some in Fl as [Fl _]. apply upto_in1 in Fl. injection Er as <- _. lia. }
  assert (Hin : forall l b, 0 <= l -> (In b (F l) <-> exists S, b = (2 * l, S) /\ allowed (twoSpin p) (twoSpin d1) (twoSpin d2) l S /\ (c = true -> parity_ok p d1 d2 l))).
  { intros l b Hl. rewrite HF. pose proof (conserves_ok p d1 d2 l Hl) as CP.
    assert (Hc : (if c && negb (conservesParity p d1 d2 l) then False else True) <-> (c = true -> parity_ok p d1 d2 l)).
    { destruct c; cbn [andb]; [|split; [discriminate|auto]]. destruct (conservesParity p d1 d2 l); cbn [negb]; split; intuition discriminate. }
    destruct (c && negb (conservesParity p d1 d2 l)).
    - split; [intros []|]. intros (S & _ & _ & X). now apply Hc in X.
    - rewrite in_flat_map. split.
      + intros (S & IS & Ib). apply upto_in in IS as [IS MS]; [|lia]. apply entries_in in Ib as [-> T]; [|lia|lia|lia].
        exists S. split; [reflexivity|]. split; [|now apply Hc]. apply Z.mod_divide in MS as [q Q]; [|lia].
        unfold statistics_ok in E. apply Z.even_spec in E as [k K].
        split; [assumption|]. split; split; [lia| |lia|]; apply Z.even_spec.
        * destruct (Z.abs_spec (twoSpin d1 - twoSpin d2)) as [[_ A] | [_ A]]; rewrite A in Q; [exists (q + twoSpin d1)|exists (q + twoSpin d2)]; lia.
        * destruct (Z.abs_spec (twoSpin d1 - twoSpin d2)) as [[_ A] | [_ A]]; rewrite A in Q; [exists (l + q + k - twoSpin d2)|exists (l + q + k - twoSpin d1)]; lia.
      + intros (S & -> & (_ & [T1 T1'] & [T2 T2']) & _). exists S. split.
        * apply upto_in; [lia|]. split; [assumption|]. apply Z.mod_divide; [lia|]. apply Z.even_spec in T1' as [k K].
          destruct (Z.abs_spec (twoSpin d1 - twoSpin d2)) as [[_ A] | [_ A]]; rewrite A; [exists (k - twoSpin d1)|exists (k - twoSpin d2)]; lia.
        * apply entries_in; try lia. split; [reflexivity|lia]. }
  split.
  - apply flat_map_nodup with (g := fun b => fst b / 2).
    + apply upto_nodup. lia.
    + intros l Il. rewrite HF. destruct (c && _); [constructor|]. apply flat_map_nodup with (g := snd).
      * apply upto_nodup. lia.
      * intros; apply entries_one.
      * intros S b _ Ib. unfold entries in Ib. destruct (negb _ && _ && _), ((_ || _) && _); cbn in Ib; intuition (subst; auto).
    + intros l b Il Ib. apply upto_in1 in Il. apply Hin in Ib as (S & -> & _); [|lia]. cbn [fst]. rewrite Z.mul_comm. apply Z.div_mul. lia.
  - intros x S. rewrite in_flat_map. split.
    + intros (l & Il & Ib). apply upto_in1 in Il. apply Hin in Ib as (S' & Q & A & B); [|lia]. injection Q as -> ->. exists l. auto.
    + intros (L & -> & A & B). exists L. split; [|apply Hin; [apply A|exists S; auto]]. apply upto_in1.
      destruct c.
      * destruct (orbitalRange_parity p d1 d2) as [(lo' & hi' & Q & Le & Gr) | [Q No]]; [repeat split; assumption|assumption| |].
        -- assert (lo' = lo /\ hi' = hi) as [-> ->] by (split; congruence). split; [apply Le|apply Gr]; split; eauto.
        -- exfalso. apply (No L). split; eauto.
      * assert (R : range p d1 d2 = (lo, hi)). { unfold orbitalRange in Er. destruct (range p d1 d2). exact Er. }
        pose proof (range_ok p d1 d2 L ltac:(repeat split; assumption) E) as X. rewrite R in X. cbn [fst snd] in X. apply X. eauto.
Qed.
