(** The rule on one region. *)
From Verif.Common Require Import Prelude.
From Coq Require Import Reals Lra.
From Verif.Integrate Require Import Model Spec LoopProofs.
Local Open Scope R_scope.

Definition Rsum {A} (f : A -> R) (l : list A) : R := fold_right Rplus 0 (map f l).
Lemma Rsum_cons {A} (f : A -> R) x l : Rsum f (x :: l) = f x + Rsum f l. Proof. reflexivity. Qed.
Lemma Rsum_ext {A} (f g : A -> R) l : (forall x, In x l -> f x = g x) -> Rsum f l = Rsum g l.
Proof. intro H. unfold Rsum. f_equal. now apply map_ext_in. Qed.
Lemma Rsum_add {A} (f g : A -> R) l : Rsum (fun x => f x + g x) l = Rsum f l + Rsum g l.
Proof. induction l as [|x l IH]; [cbn; lra|]. rewrite !Rsum_cons, IH. lra. Qed.
Lemma Rsum_mul {A} (f : A -> R) c l : Rsum (fun x => c * f x) l = c * Rsum f l.
Proof. induction l as [|x l IH]; [cbn; lra|]. rewrite !Rsum_cons, IH. lra. Qed.
Lemma Rsum_map {A B} (f : B -> R) (g : A -> B) l : Rsum f (map g l) = Rsum (fun x => f (g x)) l.
Proof. unfold Rsum. now rewrite map_map. Qed.
Lemma Rsum_swap {A B} (f : A -> B -> R) l m : Rsum (fun x => Rsum (f x) m) l = Rsum (fun y => Rsum (fun x => f x y) l) m.
Proof. induction l as [|x l IH]; [cbn; induction m as [|y m IHm]; [reflexivity|rewrite Rsum_cons, <- IHm; cbn; lra]|]. rewrite Rsum_cons, IH, <- Rsum_add. apply Rsum_ext. intros y _. now rewrite Rsum_cons. Qed.
Lemma Rsum_zero {A} (l : list A) : Rsum (fun _ => 0) l = 0.
Proof. induction l as [|x l IH]; [reflexivity|]. rewrite Rsum_cons, IH. lra. Qed.
Lemma fold_Rsum {A} (f : A -> R) l acc : fold_left (fun s x => s + f x) l acc = acc + Rsum f l.
Proof. revert acc. induction l as [|x l IH]; intro acc; cbn [fold_left]; [cbn; lra|]. rewrite IH, Rsum_cons. lra. Qed.
Lemma seq_succ n : seq 0 (S n) = O :: map S (seq 0 n). Proof. cbn. now rewrite seq_shift. Qed.

(** ** Points *)
Fixpoint pt (c w t : list R) : list R := match c, w, t with x :: c', y :: w', s :: t' => (x + y * s) :: pt c' w' t' | _, _, _ => [] end.
Definition zeros (n : nat) : list R := repeat 0 n.
Lemma pt_length c w t n : List.length c = n -> List.length w = n -> List.length t = n -> List.length (pt c w t) = n.
Proof. revert w t n. induction c as [|x c IH]; intros [|y w] [|s t] [|n] Hc Hw Ht; cbn in *; try discriminate; auto. Qed.
Lemma pt_zeros c w : List.length w = List.length c -> pt c w (zeros (List.length c)) = c.
Proof. revert w. induction c as [|x c IH]; intros [|y w] H; cbn in *; try discriminate; [reflexivity|]. f_equal; [lra|]. apply IH. lia. Qed.
Lemma add_pt c w t j l : List.length w = List.length c -> List.length t = List.length c -> add_at (pt c w t) j (l * nth j w 0) = pt c w (add_at t j l).
Proof.
  revert w t j. induction c as [|x c IH]; intros [|y w] [|s t] [|j] Hw Ht; cbn in *; try discriminate; try reflexivity.
  - f_equal. lra.
  - f_equal. apply IH; lia.
Qed.
Lemma add_at_length z j p : List.length (add_at z j p) = List.length z. Proof. rewrite add_at_change. apply change_length. Qed.
Definition signs (l : R) (n m : nat) : list R := map (fun k => (if Nat.testbit m k then 1 else -1) * l) (seq 0 n).
Lemma corner_pt C c w m n : List.length c = n -> List.length w = n -> corner C n c w m = pt c w (signs (xl5 C) n m).
Proof.
  assert (G : forall s c w, List.length c = n -> List.length w = n ->
    map (fun k => nth (k - s) c 0 + (if Nat.testbit m k then 1 else -1) * xl5 C * nth (k - s) w 0) (seq s n) = pt c w (map (fun k => (if Nat.testbit m k then 1 else -1) * xl5 C) (seq s n))).
  { clear. induction n as [|n IH]; intros s [|x c] [|y w] Hc Hw; cbn in *; try discriminate; [reflexivity|]. rewrite Nat.sub_diag. f_equal; [ring|]. rewrite <- (IH (S s) c w) by lia. apply map_ext_in. intros k Hk. apply in_seq in Hk. replace (k - s)%nat with (S (k - S s)) by lia. reflexivity. }
  intros Hc Hw. unfold signs. rewrite <- (G 0%nat c w Hc Hw). unfold corner. apply map_ext. intro k. now rewrite Nat.sub_0_r.
Qed.
Lemma signs_length l n m : List.length (signs l n m) = n. Proof. unfold signs. now rewrite map_length, seq_length. Qed.

(** ** The sums *)
Section Sums.
  Variable C : constants.
  Variable F : list R -> R.
  Variable dim : nat.
  Variable c w : list R.
  Hypothesis Hc : List.length c = dim.
  Hypothesis Hw : List.length w = dim.
  Definition G (t : list R) : R := F (pt c w t).
  Definition e1 (l : R) (j : nat) : list R := add_at (zeros dim) j l.
  Definition e2 (l : R) (j : nat) (l' : R) (k : nat) : list R := add_at (e1 l j) k l'.
  Lemma eval_G l j : eval F c (l * nth j w 0) j = G (e1 l j).
  Proof. unfold eval, G, e1. f_equal. rewrite <- (pt_zeros c w) at 1 by lia. rewrite Hc. apply add_pt; [lia|]. unfold zeros. rewrite repeat_length. lia. Qed.
  Lemma eval_2_G l j l' k : eval_2 F c (l * nth j w 0) j (l' * nth k w 0) k = G (e2 l j l' k).
  Proof. unfold eval_2, G, e2, e1. f_equal. rewrite <- (pt_zeros c w) at 1 by lia. rewrite Hc. assert (L : List.length (zeros dim) = List.length c) by (unfold zeros; rewrite repeat_length; lia). rewrite !add_pt; [reflexivity|lia|now rewrite add_at_length|lia|exact L]. Qed.
  Definition T1 (l : R) : R := Rsum (fun j => G (e1 (- l) j) + G (e1 l j)) (seq 0 dim).
  Definition four (l : R) (j k : nat) : R := G (e2 l j l k) + G (e2 l j (- l) k) + G (e2 (- l) j l k) + G (e2 (- l) j (- l) k).
  Definition T2 (l : R) : R := Rsum (fun j => Rsum (four l j) (seq (S j) (dim - S j))) (seq 0 dim).
  Definition T5 (l : R) : R := Rsum (fun m => G (signs l dim m)) (seq 0 (2 ^ dim)).
  Lemma neg_mul l j : - l * nth j w 0 = (- l) * nth j w 0. Proof. reflexivity. Qed.
  Lemma coordinate_sums l : forall s, let s' := fold_left (coordinate C F dim c w (F c)) l s in
    sum2 s' = sum2 s + Rsum (fun j => G (e1 (- xl2 C) j) + G (e1 (xl2 C) j)) l /\
    sum3 s' = sum3 s + Rsum (fun j => G (e1 (- xl4 C) j) + G (e1 (xl4 C) j)) l /\
    sum4 s' = sum4 s + Rsum (fun j => Rsum (four (xl4 C) j) (seq (S j) (dim - S j))) l.
  Proof.
    induction l as [|j l IH]; intro s; cbn zeta; cbn [fold_left]; [unfold Rsum; cbn [map fold_right]; repeat split; lra|].
    destruct (IH (coordinate C F dim c w (F c) s j)) as (A & B & D). cbn zeta in *. rewrite A, B, D. clear - Hc Hw. unfold coordinate. cbn [sum2 sum3 sum4]. rewrite !eval_G, !Rsum_cons. split; [lra|]. split; [lra|].
    assert (P : forall m acc, fold_left (fun sum4 k => pairs C F c w j k sum4) m acc = acc + Rsum (four (xl4 C) j) m).
    { induction m as [|k m IHm]; intro acc; cbn [fold_left]; [unfold Rsum; cbn; lra|]. rewrite IHm, Rsum_cons. unfold pairs. cbv zeta. rewrite !eval_2_G. unfold four. lra. }
    rewrite P. lra.
  Qed.
  (** where the function bends most *)
  Lemma moved_add l j : moved c w j l = add_at c j (l * nth j w 0). Proof. unfold moved. now rewrite add_at_change. Qed.
  Lemma coordinate_axis l s0 : let s := fold_left (coordinate C F dim c w (F c)) l s0 in
    difmax s0 <= difmax s /\ (forall j, In j l -> bend (xl2 C) (xl4 C) F c w j <= difmax s) /\
    ((difmax s = difmax s0 /\ idvaxn s = idvaxn s0 /\ (forall j, In j l -> bend (xl2 C) (xl4 C) F c w j < difmax s0)) \/ In (idvaxn s) l /\ bend (xl2 C) (xl4 C) F c w (idvaxn s) = difmax s).
  Proof.
    revert s0. induction l as [|j l IH]; intro s0; cbn zeta; cbn [fold_left].
    - split; [lra|]. split; [intros j []|]. left. split; [reflexivity|]. split; [reflexivity|]. intros j [].
    - destruct (IH (coordinate C F dim c w (F c) s0 j)) as (A & B & D). cbn zeta in *. set (s := fold_left _ l _) in *. clearbody s.
      assert (E : Rabs (7 * (eval F c (- xl2 C * nth j w 0) j + eval F c (xl2 C * nth j w 0) j) - (eval F c (- xl4 C * nth j w 0) j + eval F c (xl4 C * nth j w 0) j) - 12 * F c) = bend (xl2 C) (xl4 C) F c w j) by (unfold bend; rewrite !moved_add; reflexivity).
      unfold coordinate in *. cbn [difmax idvaxn] in *. rewrite E in *. set (d := bend _ _ F c w j) in *. destruct (Rle_dec (difmax s0) d) as [L|L].
      + split; [lra|]. split; [intros k [<- |Ik]; [exact A|now apply B]|]. right. destruct D as [(D1 & D2 & D3)|(D1 & D2)]; [rewrite D2, D1; split; [now left|reflexivity]|split; [now right|exact D2]].
      + split; [exact A|]. split; [intros k [<- |Ik]; [change (d <= difmax s); lra|now apply B]|]. destruct D as [(D1 & D2 & D3)|(D1 & D2)]; [left|right; split; [now right|exact D2]]. split; [exact D1|]. split; [exact D2|]. intros k [<- |Ik]; [change (d < difmax s0); lra|now apply D3].
  Qed.
  Definition volume : R := fold_left (fun x j => x * nth j w 0) (seq 0 dim) (2 ^ dim).
  Lemma rule_value p1 p3 n1 n3 n5 : (2 <= dim)%nat -> nth_error (wpn1 C) (dim - 2) = Some p1 -> nth_error (wpn3 C) (dim - 2) = Some p3 -> nth_error (wn1 C) (dim - 2) = Some n1 -> nth_error (wn3 C) (dim - 2) = Some n3 -> nth_error (wn5 C) (dim - 2) = Some n5 ->
    exists ax, let v := volume * (n1 * G (zeros dim) + w2 C * T1 (xl2 C) + n3 * T1 (xl4 C) + w4 C * T2 (xl4 C) + n5 * T5 (xl5 C)) in
      integrate_fp C F dim c w = Ok (v, Rabs (v - volume * (p1 * G (zeros dim) + wp2 C * T1 (xl2 C) + p3 * T1 (xl4 C) + wp4 C * T2 (xl4 C))), ax) /\ (ax < dim)%nat /\
      forall j, (j < dim)%nat -> bend (xl2 C) (xl4 C) F c w j <= bend (xl2 C) (xl4 C) F c w ax.
  Proof.
    intros D2 E1 E3 N1 N3 N5. unfold integrate_fp. rewrite E1, E3, N1, N3, N5. destruct (Nat.ltb_spec dim 2) as [L|L]; [lia|].
    destruct (coordinate_sums (seq 0 dim) (Sums 0 0 0 0 0)) as (A & B & D). destruct (coordinate_axis (seq 0 dim) (Sums 0 0 0 0 0)) as (X & Y & Z). cbn zeta in *. set (s := fold_left _ _ (Sums 0 0 0 0 0)) in *. fold volume. cbn [sum2 sum3 sum4 difmax idvaxn] in *.
    exists (idvaxn s). split.
    - rewrite A, B, D, fold_Rsum, !Rplus_0_l. assert (E0 : F c = G (zeros dim)) by (unfold G; rewrite <- Hc, pt_zeros by lia; reflexivity). rewrite E0.
      assert (E5 : Rsum (fun j => F (corner C dim c w j)) (seq 0 (2 ^ dim)) = T5 (xl5 C)) by (apply Rsum_ext; intros m _; unfold G; now rewrite corner_pt). rewrite E5. reflexivity.
    - destruct Z as [(Z1 & Z2 & Z3)|(Z1 & Z2)].
      + exfalso. specialize (Z3 0%nat). assert (I : In 0%nat (seq 0 dim)) by (apply in_seq; lia). specialize (Z3 I). unfold bend in Z3. match type of Z3 with Rabs ?x < 0 => pose proof (Rabs_pos x) end. lra.
      + apply in_seq in Z1. split; [lia|]. intros j Hj. rewrite Z2. apply Y. apply in_seq. lia.
  Qed.
End Sums.
