(** Proofs about single events. *)
From Verif.Events Require Import Model Spec.
From Coq Require Import Permutation Ring_theory Ring.
Local Open Scope nat_scope.

Lemma set_at_app_r {A} (l r : list A) n x : set_at (List.length l + n) x (l ++ r) = option_map (app l) (set_at n x r).
Proof.
  induction l as [|y l IH]; [cbn [List.length Nat.add app]; now destruct (set_at n x r)|].
  cbn [List.length Nat.add app set_at]. rewrite IH. now destruct (set_at n x r).
Qed.

Section Flat.
  Variable A : Type.
  Notation quad := (A * A * A * A)%type.

  Lemma flat_length (ps : list quad) : List.length (flat ps) = 4 * List.length ps.
  Proof. induction ps as [|[[[x y] z] t] ps IH]; [reflexivity|]. unfold flat in *. cbn [map List.concat]. rewrite app_length, IH. cbn [List.length]. lia. Qed.

  Lemma flat_app (ps qs : list quad) : flat (ps ++ qs) = flat ps ++ flat qs.
  Proof. unfold flat. now rewrite map_app, concat_app. Qed.

  Lemma split_at (ps : list quad) i p : nth_error ps i = Some p -> exists a b, ps = a ++ p :: b /\ List.length a = i.
  Proof. intro H. apply nth_error_split in H as (a & b & H & L). eauto. Qed.

  Lemma block_flat ps rest i : i < List.length ps -> block A (flat ps ++ rest) i = of_opt (nth_error ps i).
  Proof.
    intro Hi. destruct (nth_error ps i) as [p|] eqn:E; [|apply nth_error_None in E; lia].
    apply split_at in E as (a & b & -> & <-). destruct p as [[[x y] z] t]. rewrite flat_app, <- app_assoc.
    assert (G : forall k, nth_error (flat a ++ flat ((x, y, z, t) :: b) ++ rest) (4 * List.length a + k) = nth_error ([x; y; z; t] ++ flat b ++ rest) k).
    { intro k. rewrite nth_error_app2 by (rewrite flat_length; lia). rewrite flat_length.
      replace (4 * List.length a + k - 4 * List.length a) with k by lia. reflexivity. }
    unfold block, get. pose proof (G 0) as G0. rewrite Nat.add_0_r in G0. rewrite G0, !G. reflexivity.
  Qed.

  Lemma set_block_flat ps rest i p : i < List.length ps ->
    exists ps', set_at i p ps = Some ps' /\ set_block A (flat ps ++ rest) i p = Ok (flat ps' ++ rest).
  Proof.
    intro Hi. destruct (nth_error ps i) as [q|] eqn:E; [|apply nth_error_None in E; lia].
    apply split_at in E as (a & b & -> & <-). exists (a ++ p :: b). split.
    - rewrite <- (Nat.add_0_r (List.length a)). rewrite set_at_app_r. reflexivity.
    - destruct p as [[[x y] z] t], q as [[[x' y'] z'] t']. rewrite !flat_app, <- !app_assoc.
      unfold set_block, put. set (f := flat a).
      assert (Lf : 4 * List.length a = List.length f) by (unfold f; rewrite flat_length; lia). rewrite !Lf.
      rewrite <- (Nat.add_0_r (List.length f)) at 1. rewrite set_at_app_r. cbn [flat map List.concat app set_at option_map of_opt bind].
      rewrite set_at_app_r. cbn [flat map List.concat app set_at option_map of_opt bind].
      rewrite set_at_app_r. cbn [flat map List.concat app set_at option_map of_opt bind].
      rewrite set_at_app_r. cbn [flat map List.concat app set_at option_map of_opt bind].
      reflexivity.
  Qed.

  Lemma swap_flat ps rest i j : i < List.length ps -> j < List.length ps ->
    exists ps', exchanged i j ps ps' /\ swap A (flat ps ++ rest) i j = Ok (flat ps' ++ rest).
  Proof.
    intros Hi Hj. unfold swap. rewrite !block_flat by assumption.
    destruct (nth_error ps j) as [q|] eqn:Ej; [|apply nth_error_None in Ej; lia].
    destruct (nth_error ps i) as [p|] eqn:Ei; [|apply nth_error_None in Ei; lia]. cbn [of_opt bind].
    destruct (set_block_flat ps rest j p Hj) as (ps1 & S1 & ->). cbn [bind].
    destruct (set_at_Some j p ps Hj) as (ps1' & S1' & L1 & N1). assert (ps1' = ps1) by congruence. subst ps1'.
    destruct (set_block_flat ps1 rest i q ltac:(lia)) as (ps2 & S2 & ->).
    destruct (set_at_Some i q ps1 ltac:(lia)) as (ps2' & S2' & L2 & N2). assert (ps2' = ps2) by congruence. subst ps2'.
    exists ps2. split; [|reflexivity]. split; [lia|]. intro k. rewrite N2. destruct (Nat.eqb_spec k i) as [->|]; [congruence|].
    rewrite N1. destruct (Nat.eqb_spec k j) as [->|]; congruence.
  Qed.

  Lemma exchanged_unique {B} i j (l : list B) l1 l2 : exchanged i j l l1 -> exchanged i j l l2 -> l1 = l2.
  Proof. intros [_ H1] [_ H2]. apply nth_error_ext_eq. intro k. now rewrite H1, H2. Qed.

  Lemma exchanged_twice {B} i j (l : list B) l1 l2 : i < List.length l -> j < List.length l ->
    exchanged i j l l1 -> exchanged i j l1 l2 -> l2 = l.
  Proof.
    intros Hi Hj [_ H1] [_ H2]. apply nth_error_ext_eq. intro k. rewrite H2, H1.
    destruct (Nat.eqb_spec k i) as [->|]; [|destruct (Nat.eqb_spec k j) as [->|]].
    - destruct (Nat.eqb_spec j i) as [->|]; [reflexivity|]. now rewrite Nat.eqb_refl.
    - now rewrite Nat.eqb_refl.
    - destruct (Nat.eqb_spec k i); [contradiction|]. destruct (Nat.eqb_spec k j); [contradiction|]. reflexivity.
  Qed.

  Lemma swap_twice ps rest i j e' : i < List.length ps -> j < List.length ps ->
    swap A (flat ps ++ rest) i j = Ok e' -> swap A e' i j = Ok (flat ps ++ rest).
  Proof.
    intros Hi Hj H. destruct (swap_flat ps rest i j Hi Hj) as (ps1 & X1 & S1). rewrite S1 in H. injection H as <-.
    assert (L : List.length ps1 = List.length ps) by apply X1.
    destruct (swap_flat ps1 rest i j ltac:(lia) ltac:(lia)) as (ps2 & X2 & S2). rewrite S2.
    now rewrite (exchanged_twice i j ps ps1 ps2 Hi Hj X1 X2).
  Qed.

  (** A permutation of the places. *)
  Lemma perm_seq_lt a n : Permutation a (seq 0 n) -> forall i p, nth_error a i = Some p -> p < n.
  Proof. intros H i p E. apply nth_error_In in E. apply (Permutation_in _ H) in E. apply in_seq in E. lia. Qed.

  Lemma reorder_from_flat rest : forall a i copy ps,
    i + List.length a <= List.length copy -> List.length ps = List.length copy -> NoDup a -> (forall p, In p a -> p < List.length copy) ->
    exists ps', reorder_from A i a (flat copy ++ rest) (flat ps ++ rest) = Ok (flat ps' ++ rest) /\
      List.length ps' = List.length copy /\
      (forall k p, nth_error a k = Some p -> nth_error ps' p = nth_error copy (i + k)) /\
      (forall p, ~ In p a -> nth_error ps' p = nth_error ps p).
  Proof.
    induction a as [|b a IH]; intros i copy ps Hi Hp ND Hr.
    - exists ps. cbn. repeat split; try assumption; try reflexivity. intros [|k] p; discriminate.
    - cbn [reorder_from]. cbn [List.length] in Hi. rewrite block_flat by lia.
      destruct (nth_error copy i) as [q|] eqn:E; [|apply nth_error_None in E; lia]. cbn [of_opt bind].
      assert (Hb : b < List.length ps) by (rewrite Hp; apply Hr; now left).
      destruct (set_block_flat ps rest b q Hb) as (ps1 & S1 & ->). cbn [bind].
      destruct (set_at_Some b q ps Hb) as (ps1' & S1' & L1 & N1). assert (ps1' = ps1) by congruence. subst ps1'.
      inversion ND as [|? ? Nb ND']; subst.
      destruct (IH (S i) copy ps1 ltac:(lia) ltac:(lia) ND' ltac:(intros; apply Hr; now right)) as (ps' & R & L & K & O).
      exists ps'. split; [exact R|]. split; [exact L|]. split.
      + intros [|k] p Hk; cbn [nth_error] in Hk.
        * injection Hk as <-. rewrite Nat.add_0_r, O by assumption. rewrite N1, Nat.eqb_refl. congruence.
        * rewrite (K _ _ Hk). f_equal. lia.
      + intros p Hn. rewrite O by (intro; apply Hn; now right). rewrite N1. destruct (Nat.eqb_spec p b) as [->|]; [|reflexivity].
        exfalso. apply Hn. now left.
  Qed.

  Lemma reorder_flat a ps rest : Permutation a (seq 0 (List.length a)) -> List.length a = List.length ps ->
    exists ps', reorder A a (flat ps ++ rest) = Ok (flat ps' ++ rest) /\ sent a ps ps' /\ Permutation ps' ps.
  Proof.
    intros P L. destruct (reorder_from_flat rest a 0 ps ps) as (ps' & R & L' & K & _); try lia.
    - apply (Permutation_NoDup (Permutation_sym P)), seq_NoDup.
    - intros p Hp. apply (Permutation_in _ P) in Hp. apply in_seq in Hp. lia.
    - exists ps'. split; [exact R|]. split; [split; [exact L'|exact K]|].
      (* ps = map (nth ps') a *)
      destruct ps as [|d ps0]; [destruct ps'; [constructor|discriminate]|]. set (ps := d :: ps0) in *.
      assert (E : ps = map (fun p => nth p ps' d) a).
      { apply nth_error_ext_eq. intro i. destruct (nth_error a i) as [p|] eqn:Ea.
        - rewrite (map_nth_error _ _ _ Ea). specialize (K _ _ Ea). cbn [Nat.add] in K. rewrite <- K.
          apply nth_error_nth'. rewrite L', <- L. now apply (perm_seq_lt a _ P i).
        - apply nth_error_None in Ea. replace (nth_error (map (fun p => nth p ps' d) a) i) with (@None (A * A * A * A)) by (symmetry; apply nth_error_None; rewrite map_length; lia).
          apply nth_error_None. lia. }
      rewrite E. symmetry. rewrite P. rewrite L, <- L'. clear. induction ps' as [|x l IH] using rev_ind; [constructor|].
      rewrite app_length. cbn [List.length]. rewrite seq_app, map_app. cbn [seq map Nat.add].
      rewrite nth_middle. apply Permutation_app_tail. rewrite <- IH at 2. apply Permutation_refl'. apply map_ext_in.
      intros k Hk. apply in_seq in Hk. now rewrite app_nth1 by lia.
  Qed.
End Flat.

Section Ringed.
  Variable A : Type.
  Variables (zero one : A) (add mul sub : A -> A -> A) (opp : A -> A).
  Variable R : ring_theory zero one add mul sub opp (@eq A).
  Add Ring ring_A : R.
  Notation quad := (A * A * A * A)%type.
  Notation plus4' := (plus4 add). Notation total' := (total zero add). Notation mass2' := (mass2 sub mul).

  Lemma plus4_comm p q : plus4' p q = plus4' q p.
  Proof. destruct p as [[[? ?] ?] ?], q as [[[? ?] ?] ?]. cbn. refine (f_equal2 pair (f_equal2 pair (f_equal2 pair _ _) _) _); ring. Qed.
  Lemma plus4_assoc p q r : plus4' p (plus4' q r) = plus4' (plus4' p q) r.
  Proof. destruct p as [[[? ?] ?] ?], q as [[[? ?] ?] ?], r as [[[? ?] ?] ?]. cbn. refine (f_equal2 pair (f_equal2 pair (f_equal2 pair _ _) _) _); ring. Qed.
  Lemma plus4_zero p : plus4' p (zero, zero, zero, zero) = p.
  Proof. destruct p as [[[? ?] ?] ?]. cbn. refine (f_equal2 pair (f_equal2 pair (f_equal2 pair _ _) _) _); ring. Qed.

  Lemma total_perm l l' : Permutation l l' -> total' l = total' l'.
  Proof.
    induction 1 as [|x l l' _ IH|x y l|l l' l'' _ IH1 _ IH2]; [reflexivity| | |congruence].
    - unfold total in *. cbn [fold_right]. now rewrite IH.
    - unfold total. cbn [fold_right]. now rewrite !plus4_assoc, (plus4_comm y x).
  Qed.

  Lemma sum4_total ps rest : forall l acc qs, Forall2 (fun i q => nth_error ps i = Some q) l qs ->
    sum4 A add (flat ps ++ rest) l acc = Ok (plus4' acc (total' qs)).
  Proof.
    induction l as [|i l IH]; intros acc qs H; inversion H as [|? q ? qs' H1 H2]; subst.
    - cbn. now rewrite plus4_zero.
    - cbn [sum4]. rewrite block_flat by (apply nth_error_Some; congruence). rewrite H1. cbn [of_opt bind].
      destruct q as [[[x y] z] t], acc as [[[px py] pz] E]. rewrite (IH _ qs' H2). f_equal.
      cbn [total fold_right]. fold (total' qs'). rewrite plus4_assoc. reflexivity.
  Qed.

  Lemma s_all_total ps rest l qs : Forall2 (fun i q => nth_error ps i = Some q) l qs ->
    s_all A zero add sub mul (flat ps ++ rest) l = Ok (mass2' (total' qs)).
  Proof.
    intro H. pose proof (sum4_total ps rest l (zero, zero, zero, zero) qs H) as S4.
    assert (Z : plus4' (zero, zero, zero, zero) (total' qs) = total' qs) by (rewrite plus4_comm; apply plus4_zero).
    rewrite Z in S4.
    assert (G : bind (sum4 A add (flat ps ++ rest) l (zero, zero, zero, zero))
       (fun '(px, py, pz, E) => Ok (sub (sub (sub (mul E E) (mul px px)) (mul py py)) (mul pz pz))) = Ok (mass2' (total' qs))).
    { rewrite S4. cbn [bind]. destruct (total' qs) as [[[a b] c] d]. reflexivity. }
    destruct l as [|i [|j [|k [|m l]]]]; try exact G.
    - inversion H as [|? q1 ? qs1 H1 H2]; subst. inversion H2 as [|? q2 ? qs2 H3 H4]; subst. inversion H4; subst.
      cbn [s_all]. unfold s2. rewrite !block_flat by (apply nth_error_Some; congruence). rewrite H1, H3. cbn [of_opt bind].
      destruct q1 as [[[x1 y1] z1] t1], q2 as [[[x2 y2] z2] t2]. cbn. f_equal. ring.
    - inversion H as [|? q1 ? qs1 H1 H2]; subst. inversion H2 as [|? q2 ? qs2 H3 H4]; subst. inversion H4 as [|? q3 ? qs3 H5 H6]; subst. inversion H6; subst.
      cbn [s_all]. unfold s3. rewrite !block_flat by (apply nth_error_Some; congruence). rewrite H1, H3, H5. cbn [of_opt bind].
      destruct q1 as [[[x1 y1] z1] t1], q2 as [[[x2 y2] z2] t2], q3 as [[[x3 y3] z3] t3]. cbn. f_equal. ring.
  Qed.

  Lemma s1_mass ps rest i q : nth_error ps i = Some q -> s1 A sub mul (flat ps ++ rest) i = Ok (mass2' q).
  Proof.
    intro H. unfold s1. rewrite block_flat by (apply nth_error_Some; congruence). rewrite H. cbn [of_opt bind].
    destruct q as [[[x y] z] t]. reflexivity.
  Qed.
End Ringed.
