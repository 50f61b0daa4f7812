From Coq Require Import Reals List ZArith Lra Lia.
From Verif.Spline Require Import Model Spec Proofs.
Import ListNotations.
Local Open Scope R_scope.

(** ** C71 *)
(** What is evaluated between the first and the last knot is the natural cubic spline through the knots, if the transfer
    matrix is the inverse and the constants of the generated code are printed exactly. *)
Theorem C71_natural : forall shown W y min max, let n := length y in let h := (max - min) / INR (n - 1) in
  (2 <= n)%nat -> min < max -> right_inverse (n - 2) band W -> (forall c, In c (constants n min max h) -> shown c = c) ->
  exists mem p, transfer W y min max = Some mem /\ natural n h (fun k => nth k y 0) p /\
    forall k x, (k + 1 < n)%nat -> min < x < max -> min + INR k * h <= x <= min + INR (k + 1) * h ->
      eval shown mem n min max x = Some (at_ (p k) (x - (min + INR k * h))).
Proof.
  intros shown W y min max n h Hn Hm HW Hs. assert (Eh : spacing n min max = h) by (apply spacing_eq; lia).
  pose proof (spacing_pos n min max Hn Hm) as Hh. pose proof (spacing_span n min max Hn) as Sp. rewrite Eh in Hh, Sp.
  exists (y ++ mvectors W y min max), (piece W y min max). split; [unfold transfer; fold n; destruct (Nat.ltb_spec n 2); [lia|reflexivity]|].
  pose proof (piece_natural W y min max Hn HW Hh) as N. fold n in N. fold h in N. split; [exact N|].
  assert (Hs' : forall c, In c (constants n min max (spacing n min max)) -> shown c = c) by (rewrite Eh; exact Hs).
  intros k x Hk Hx [L R]. rewrite plus_INR in R. cbn [INR] in R.
  destruct (Rle_lt_or_eq_dec _ _ R) as [R'|E].
  - pose proof (eval_inside shown W y min max Hn Hm Hs' x k Hx Hk) as A. fold n in A. rewrite Eh in A. apply A. lra.
  - assert (K : (k + 2 < n)%nat). { apply INR_lt. rewrite plus_INR. cbn [INR]. apply Rmult_lt_reg_r with h; [exact Hh|]. lra. }
    pose proof (eval_inside shown W y min max Hn Hm Hs' x (k + 1) Hx) as A. fold n in A. rewrite Eh in A. rewrite A; [|lia|rewrite plus_INR; cbn [INR]; lra].
    f_equal. rewrite plus_INR. cbn [INR]. replace (x - (min + (INR k + 1) * h)) with 0 by lra. replace (x - (min + INR k * h)) with h by lra.
    pose proof (left_value _ _ _ _ N (k + 1) ltac:(lia)) as A1. pose proof (right_value _ _ _ _ N k Hk) as A2. rewrite A2. exact A1.
Qed.
Print Assumptions C71_natural.
(** There is only one natural cubic spline through given knots. *)
Theorem C71_unique : forall n h y p q, (2 <= n)%nat -> 0 < h -> natural n h y p -> natural n h y q -> forall k, (k + 1 < n)%nat -> p k = q k.
Proof. intros n h y p q Hn Hh P Q. exact (natural_unique n h y Hn Hh p q P Q). Qed.
Print Assumptions C71_unique.
(** The matrix that is inverted has an inverse for every number of knots. *)
Theorem C71_invertible : forall size, exists W, right_inverse size band W.
Proof. intro size. exists (inv_band size). apply band_inverse. Qed.
Print Assumptions C71_invertible.
(** The values at the knots, apart from the first, and beyond the last knot. *)
Theorem C71_knots : forall shown W y min max mem, let n := length y in let h := (max - min) / INR (n - 1) in
  (2 <= n)%nat -> min < max -> right_inverse (n - 2) band W -> (forall c, In c (constants n min max h) -> shown c = c) -> transfer W y min max = Some mem ->
  (forall k, (0 < k < n)%nat -> eval shown mem n min max (min + INR k * h) = Some (nth k y 0)) /\
  (forall x, max <= x -> eval shown mem n min max x = Some (nth (n - 1) y 0)).
Proof.
  intros shown W y min max mem n h Hn Hm HW Hs HT. assert (Eh : spacing n min max = h) by (apply spacing_eq; lia).
  assert (Hs' : forall c, In c (constants n min max (spacing n min max)) -> shown c = c) by (rewrite Eh; exact Hs).
  pose proof (spacing_pos n min max Hn Hm) as Hh. pose proof (spacing_span n min max Hn) as Sp. rewrite Eh in Hh, Sp.
  assert (O : forall x, max <= x -> eval shown mem n min max x = Some (nth (n - 1) y 0)).
  { intros x Hx. unfold transfer in HT. fold n in HT. destruct (Nat.ltb_spec n 2); [lia|]. injection HT as <-. apply (eval_outside shown W y min max Hn Hs' x). now right. }
  split; [|exact O]. intros k Hk. destruct (Nat.eq_dec k (n - 1)) as [-> | Nk].
  - rewrite O; [reflexivity|]. rewrite minus_INR by lia. cbn [INR]. lra.
  - destruct (C71_natural shown W y min max Hn Hm HW Hs) as (mem' & p & T & N & A). fold n in A. fold h in A. rewrite HT in T. injection T as <-.
    assert (Hx : min < min + INR k * h < max).
    { assert (0 < INR k) by (apply lt_0_INR; lia). assert (INR k < INR n - 1). { change 1 with (INR 1). rewrite <- minus_INR by lia. apply lt_INR. lia. } nra. }
    rewrite (A k); [|lia|exact Hx|rewrite plus_INR; cbn [INR]; lra]. f_equal. replace (min + INR k * h - (min + INR k * h)) with 0 by ring. apply (left_value _ _ _ _ N). lia.
Qed.
Print Assumptions C71_knots.
(** The spline has a value everywhere, and between the first and the last knot it is twice continuously differentiable,
    with no curvature at the ends. *)
Theorem C71_smooth : forall shown W y min max mem, let n := length y in let h := (max - min) / INR (n - 1) in
  (2 <= n)%nat -> min < max -> right_inverse (n - 2) band W -> (forall c, In c (constants n min max h) -> shown c = c) -> transfer W y min max = Some mem ->
  exists f, (forall x, eval shown mem n min max x = Some (f x)) /\ smooth f min max /\
    tends f (fun x => min < x < max) (nth 0 y 0) min /\ tends f (fun x => min < x) (nth (n - 1) y 0) max.
Proof.
  intros shown W y min max mem n h Hn Hm HW Hs HT. assert (Eh : spacing n min max = h) by (apply spacing_eq; lia).
  assert (Hs' : forall c, In c (constants n min max (spacing n min max)) -> shown c = c) by (rewrite Eh; exact Hs).
  pose proof (spacing_pos n min max Hn Hm) as Hh. pose proof (spacing_span n min max Hn) as Sp. rewrite Eh in Hh, Sp.
  assert (M : mem = y ++ mvectors W y min max). { unfold transfer in HT. fold n in HT. destruct (Nat.ltb_spec n 2); [lia|]. congruence. }
  pose proof (piece_natural W y min max Hn HW Hh) as N. fold n in N. fold h in N.
  set (f := fun x => match eval shown mem n min max x with Some v => v | None => 0 end).
  assert (O : forall x, x <= min \/ max <= x -> eval shown mem n min max x = Some (nth (n - 1) y 0)).
  { intros x Hx. rewrite M. exact (eval_outside shown W y min max Hn Hs' x Hx). }
  assert (I : forall k x, min < x < max -> (k + 1 < n)%nat -> knot min h k <= x < knot min h (S k) -> eval shown mem n min max x = Some (at_ (piece W y min max k) (x - knot min h k))).
  { intros k x Hx Hk K. pose proof (eval_inside shown W y min max Hn Hm Hs' x k Hx Hk) as A. fold n in A. rewrite <- M, Eh in A. apply A. unfold knot in K. rewrite S_INR in K. lra. }
  exists f. split; [|split; [|split]].
  - intro x. unfold f. destruct (Rlt_le_dec min x) as [L|L]; [|now rewrite (O x (or_introl L))]. destruct (Rlt_le_dec x max) as [R|R]; [|now rewrite (O x (or_intror R))].
    destruct (index_exists n min max h Hh Sp x (conj L R)) as (k & Hk & K). now rewrite (I k x (conj L R) Hk K).
  - apply (natural_smooth n min max h Hn Hh Sp (fun k => nth k y 0) (piece W y min max) f N). intros k x Hx Hk K. unfold f. now rewrite (I k x Hx Hk K).
  - intros eps He. destruct (derivable_continuous_pt _ 0 (exist _ _ (at_derivative (piece W y min max 0) 0)) eps He) as (d & Hd & D). exists (Rmin d h). split; [apply Rmin_pos; lra|].
    intros x Hx Dx. pose proof (Rmin_l d h). pose proof (Rmin_r d h). unfold f. assert (A := Rabs_def2 _ _ Dx). rewrite (I 0%nat x Hx); [|lia|unfold knot; cbn [INR]; lra].
    rewrite <- (left_value _ _ _ _ N 0%nat) by lia. cbn in D. unfold R_dist in D. apply D. unfold knot. cbn [INR]. split; [split; [exact Logic.I|]|].
    + lra.
    + replace (x - (min + 0 * h) - 0) with (x - min) by ring. lra.
  - intros eps He. destruct (derivable_continuous_pt _ h (exist _ _ (at_derivative (piece W y min max (n - 2)) h)) eps He) as (d & Hd & D). exists (Rmin d h). split; [apply Rmin_pos; lra|].
    intros x Hx Dx. pose proof (Rmin_l d h). pose proof (Rmin_r d h). unfold f. destruct (Rlt_le_dec x max) as [R|R].
    + assert (A := Rabs_def2 _ _ Dx). assert (K1 : knot min h (S (n - 2)) = max). { unfold knot. replace (S (n - 2)) with (n - 1)%nat by lia. rewrite minus_INR by lia. cbn [INR]. lra. }
      assert (K0 : knot min h (n - 2) = max - h). { rewrite <- K1. unfold knot. rewrite S_INR. ring. }
      rewrite (I (n - 2)%nat x); [|lra|lia|rewrite K0, K1; lra]. pose proof (right_value _ _ _ _ N (n - 2)%nat ltac:(lia)) as E. replace (n - 2 + 1)%nat with (n - 1)%nat in E by lia. rewrite <- E.
      cbn in D. unfold R_dist in D. apply D. rewrite K0. split; [split; [exact Logic.I|]|].
      * lra.
      * replace (x - (max - h) - h) with (x - max) by ring. lra.
    + rewrite (O x (or_intror R)). rewrite Rminus_diag_eq, Rabs_R0 by reflexivity. exact He.
Qed.
Print Assumptions C71_smooth.

Lemma zero_curvature W min max : mvectors W [0; 1; 2; 3] min max = [0; 0; 0; 0].
Proof. unfold mvectors, total. cbn [length Nat.sub seq map app Sums.sig nth plus]. repeat f_equal; unfold Rdiv; ring. Qed.
Lemma tens : powerRZ 10 (-5) = / 100000 /\ powerRZ 10 (-6) = / 1000000.
Proof. unfold powerRZ. change (Pos.to_nat 5) with 5%nat. change (Pos.to_nat 6) with 6%nat. split; cbn [pow]; lra. Qed.
Lemma spacing_4 : spacing 4 0 2 = 2 / 3.
Proof. unfold spacing. cbn [INR]. field. Qed.
(** Four knots of different heights, with the inverse for two inner knots. *)
Example C71_example : exists W mem, right_inverse 2 band W /\ transfer W [1; 3; 2; 2] 0 3 = Some mem /\
  (forall c, In c (constants 4 0 3 ((3 - 0) / INR (4 - 1))) -> id c = c) /\ nth 5 mem 0 = - 26 / 5 /\ eval id mem 4 0 3 1 = Some 3.
Proof.
  exists (inv_band 2), ([1; 3; 2; 2] ++ mvectors (inv_band 2) [1; 3; 2; 2] 0 3). split; [apply band_inverse|]. split; [reflexivity|]. split; [reflexivity|]. split.
  - unfold mvectors, total, inv_band, Sums.sg. cbn [length Nat.sub seq map app Sums.sig nth plus Nat.even Nat.min Nat.max th INR]. field.
  - pose proof (C71_knots id (inv_band 2) [1; 3; 2; 2] 0 3 _ ltac:(cbn; lia) ltac:(lra) (band_inverse 2) ltac:(reflexivity) eq_refl) as [A _].
    specialize (A 1%nat ltac:(cbn; lia)). cbn [length Nat.sub INR nth] in A. rewrite <- A. f_equal. field.
Qed.
(** At the first knot, and below, the value is that of the last knot. *)
Theorem C71_left_refuted : exists W y min max mem, right_inverse (length y - 2) band W /\ transfer W y min max = Some mem /\
  (forall c, In c (constants (length y) min max ((max - min) / INR (length y - 1))) -> id c = c) /\
  (forall x, x <= min -> eval id mem (length y) min max x = Some 3) /\ nth 0 y 0 = 0.
Proof.
  exists (inv_band 2), [0; 1; 2; 3], 0, 2, ([0; 1; 2; 3] ++ mvectors (inv_band 2) [0; 1; 2; 3] 0 2).
  split; [apply band_inverse|]. split; [reflexivity|]. split; [reflexivity|]. split; [|reflexivity].
  intros x Hx. exact (eval_outside id (inv_band 2) [0; 1; 2; 3] 0 2 ltac:(cbn; lia) ltac:(reflexivity) x (or_introl Hx)).
Qed.
Print Assumptions C71_left_refuted.
(** The constants of the generated code are printed with six digits, and the remainder is taken with the printed distance
    of the knots but the number of the knot with its inverse: where the two disagree, next to the knots, the value is off by
    the distance between two knots. Four knots 0, 1, 2, 3 between 0 and 2: at the knot of height 2 the value is 2.9999995. *)
Theorem C71_digits_refuted : exists shown W y min max mem k v, right_inverse (length y - 2) band W /\ transfer W y min max = Some mem /\
  let n := length y in let h := (max - min) / INR (n - 1) in
  (forall c, In c (constants n min max h) -> six_digits c (shown c)) /\ (0 < k < n)%nat /\ eval shown mem n min max (min + INR k * h) = Some v /\ nth k y 0 + 9 / 10 < v.
Proof.
  set (sh := fun c => if Req_EM_T c (2 / 3) then 666667 / 1000000 else if Req_EM_T c (1 / 9) then 111111 / 1000000 else c).
  exists sh, (inv_band 2), [0; 1; 2; 3], 0, 2, ([0; 1; 2; 3] ++ mvectors (inv_band 2) [0; 1; 2; 3] 0 2), 2%nat, (2 + 3 / 2 * (4 / 3 - 666667 / 1000000)).
  split; [apply band_inverse|]. split; [reflexivity|]. cbn zeta. cbn [length Nat.sub].
  assert (Eh : (2 - 0) / INR 3 = 2 / 3) by (cbn [INR]; field). rewrite Eh.
  assert (S1 : sh (2 / 3) = 666667 / 1000000). { unfold sh. destruct (Req_EM_T (2 / 3) (2 / 3)); [reflexivity|contradiction]. }
  assert (S2 : sh (1 / 9) = 111111 / 1000000). { unfold sh. destruct (Req_EM_T (1 / 9) (2 / 3)); [lra|]. destruct (Req_EM_T (1 / 9) (1 / 9)); [reflexivity|contradiction]. }
  assert (S3 : forall c, c <> 2 / 3 -> c <> 1 / 9 -> sh c = c). { intros c N1 N2. unfold sh. destruct (Req_EM_T c (2 / 3)); [contradiction|]. destruct (Req_EM_T c (1 / 9)); [contradiction|reflexivity]. }
  replace (2 / 3) with (2 * / 3) in * by reflexivity. cbn [INR].
  assert (I1 : / (2 * / 3) = 3 / 2) by field. assert (I2 : 2 * / 3 * / 6 = 1 / 9) by field. assert (I3 : / (6 * (2 * / 3)) = 1 / 4) by field.
  destruct tens as [T5 T6]. split; [|split; [lia|split]].
  - unfold constants. rewrite I1, I2, I3. cbn [INR In]. intros c H.
    repeat destruct H as [<- | H]; try contradiction; rewrite ?S1, ?S2, ?S3 by lra.
    + now left.
    + right. exists 200000%Z, (-5)%Z. split; [lia|]. rewrite ?T5, ?T6. split; [lra|]. rewrite Rabs_pos_eq; lra.
    + right. exists 666667%Z, (-6)%Z. split; [lia|]. rewrite ?T5, ?T6. split; [lra|]. rewrite Rabs_left; lra.
    + right. exists 150000%Z, (-5)%Z. split; [lia|]. rewrite ?T5, ?T6. split; [lra|]. rewrite Rabs_pos_eq; lra.
    + right. exists 111111%Z, (-6)%Z. split; [lia|]. rewrite ?T5, ?T6. split; [lra|]. rewrite Rabs_pos_eq; lra.
    + right. exists 500000%Z, (-6)%Z. split; [lia|]. rewrite ?T5, ?T6. split; [lra|]. rewrite Rabs_pos_eq; lra.
    + right. exists 250000%Z, (-6)%Z. split; [lia|]. rewrite ?T5, ?T6. split; [lra|]. rewrite Rabs_pos_eq; lra.
    + right. exists 100000%Z, (-5)%Z. split; [lia|]. rewrite ?T5, ?T6. split; [lra|]. rewrite Rabs_pos_eq; lra.
    + right. exists 200000%Z, (-5)%Z. split; [lia|]. rewrite ?T5, ?T6. split; [lra|]. rewrite Rabs_pos_eq; lra.
    + right. exists 400000%Z, (-5)%Z. split; [lia|]. rewrite ?T5, ?T6. split; [lra|]. rewrite Rabs_pos_eq; lra.
    + right. exists 500000%Z, (-5)%Z. split; [lia|]. rewrite ?T5, ?T6. split; [lra|]. rewrite Rabs_pos_eq; lra.
    + right. exists 300000%Z, (-5)%Z. split; [lia|]. rewrite ?T5, ?T6. split; [lra|]. rewrite Rabs_pos_eq; lra.
    + right. exists 800000%Z, (-5)%Z. split; [lia|]. rewrite ?T5, ?T6. split; [lra|]. rewrite Rabs_pos_eq; lra.
  - rewrite zero_curvature. unfold eval. rewrite spacing_4. replace (2 / 3) with (2 * / 3) by reflexivity. rewrite I1, I2, I3. cbn [INR].
    rewrite S1, S2, !S3 by lra. replace (0 + (1 + 1) * (2 * / 3) - 0) with (4 / 3) by field. replace (0 + (1 + 1) * (2 * / 3)) with (4 / 3) by field.
    rewrite (element_at _ _ (3 / 2 * (4 / 3)) 2) by (cbn [INR]; try split; lra). rewrite (element_at _ _ (1 + 3 / 2 * (4 / 3)) 3) by (cbn [INR]; try split; lra).
    rewrite (element_at _ _ (1 + 1 + 1 + 1 + 3 / 2 * (4 / 3)) 6) by (cbn [INR]; try split; lra). rewrite (element_at _ _ (1 + 1 + 1 + 1 + 1 + 3 / 2 * (4 / 3)) 7) by (cbn [INR]; try split; lra).
    rewrite (element_at _ _ (1 + 1 + 1 + 1 - 1) 3) by (cbn [INR]; try split; lra). cbn [app nth_error].
    destruct (Rlt_dec 0 (4 / 3)); [|lra]. destruct (Rlt_dec (4 / 3) 2); [|lra].
    rewrite (fmod_at (4 / 3) (666667 / 1000000) 1) by (cbn [INR]; lra). cbn [INR]. f_equal. field.
  - cbn [nth]. lra.
Qed.
Print Assumptions C71_digits_refuted.
