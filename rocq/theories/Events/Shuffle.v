(** The shuffle of the places of one species reaches every arrangement by exactly one sequence of draws. *)
From Verif.Events Require Import Model Spec Momenta Ordering.
From Coq Require Import Permutation.
Local Open Scope nat_scope.

Definition swapped (i j : nat) (l : list nat) : list nat := map (fun k => nth (transp i j k) l 0) (seq 0 (List.length l)).

Lemma swapped_exchanged i j l : i < List.length l -> j < List.length l -> exchanged i j l (swapped i j l).
Proof.
  intros Hi Hj. unfold swapped. split; [now rewrite map_length, seq_length|]. intro k. fold (transp i j k).
  destruct (Nat.lt_ge_cases k (List.length l)) as [Hk|Hk].
  - rewrite (map_nth_error (fun k => nth (transp i j k) l 0) k (seq 0 (List.length l)) (d := k)).
    + symmetry. apply nth_error_nth'. unfold transp. destruct (k =? i), (k =? j); assumption.
    + rewrite (nth_error_nth' _ 0) by (rewrite seq_length; lia). f_equal. rewrite seq_nth by lia. reflexivity.
  - replace (nth_error (map _ (seq 0 (List.length l))) k) with (@None nat) by (symmetry; apply nth_error_None; rewrite map_length, seq_length; lia).
    symmetry. apply nth_error_None. unfold transp. destruct (Nat.eqb_spec k i); [lia|]. destruct (Nat.eqb_spec k j); lia.
Qed.

Lemma swapped_length i j l : List.length (swapped i j l) = List.length l.
Proof. unfold swapped. now rewrite map_length, seq_length. Qed.

Lemma swapped_same i l : i < List.length l -> swapped i i l = l.
Proof.
  intro H. apply nth_error_ext_eq. intro k. rewrite (proj2 (swapped_exchanged i i l H H)). destruct (Nat.eqb_spec k i) as [->|]; reflexivity.
Qed.

Lemma swapped_twice i j l : i < List.length l -> j < List.length l -> swapped i j (swapped i j l) = l.
Proof.
  intros Hi Hj. apply (exchanged_twice i j l (swapped i j l)); try assumption; apply swapped_exchanged; rewrite ?swapped_length; assumption.
Qed.

(** The array of places after the steps [0 .. n-1]. *)
Definition fy (draw : nat -> nat) (s n : nat) (l : list nat) : list nat := fold_left (fun l k => swapped k (draw k) l) (seq s n) l.

Lemma fy_length draw n : forall s l, List.length (fy draw s n l) = List.length l.
Proof. induction n as [|n IH]; intros s l; [reflexivity|]. unfold fy in *. cbn [seq fold_left]. rewrite IH. apply swapped_length. Qed.

Lemma fy_S draw n l : fy draw 0 (S n) l = swapped n (draw n) (fy draw 0 n l).
Proof. unfold fy. rewrite seq_S, fold_left_app. reflexivity. Qed.

Lemma fy_tail draw n l : (forall k, draw k <= k) -> n <= List.length l -> forall k, n <= k -> nth_error (fy draw 0 n l) k = nth_error l k.
Proof.
  intros D. induction n as [|n IH]; intros Hn k Hk; [reflexivity|]. rewrite fy_S. pose proof (D n).
  rewrite (proj2 (swapped_exchanged n (draw n) (fy draw 0 n l) ltac:(rewrite fy_length; lia) ltac:(rewrite fy_length; lia))).
  destruct (Nat.eqb_spec k n); [lia|]. destruct (Nat.eqb_spec k (draw n)); [lia|]. apply IH; lia.
Qed.

Lemma exchanged_perm {B} i j (l l' : list B) : i < List.length l -> j < List.length l -> exchanged i j l l' -> Permutation l l'.
Proof.
  intros Hi Hj (L & H). destruct l as [|d l0]; [cbn in Hi; lia|]. set (l := d :: l0) in *.
  assert (E : l' = map (fun k => nth (transp i j k) l d) (seq 0 (List.length l))).
  { apply nth_error_ext_eq. intro k. rewrite H. fold (transp i j k). destruct (Nat.lt_ge_cases k (List.length l)) as [Hk|Hk].
    - rewrite (map_nth_error (fun k => nth (transp i j k) l d) k (seq 0 (List.length l)) (d := k)).
      + apply nth_error_nth'. unfold transp. destruct (k =? i), (k =? j); assumption.
      + rewrite (nth_error_nth' _ 0) by (rewrite seq_length; lia). f_equal. rewrite seq_nth by lia. reflexivity.
    - replace (nth_error (map _ (seq 0 (List.length l))) k) with (@None B) by (symmetry; apply nth_error_None; rewrite map_length, seq_length; lia).
      apply nth_error_None. unfold transp. destruct (Nat.eqb_spec k i); [lia|]. destruct (Nat.eqb_spec k j); lia. }
  assert (P : Permutation (seq 0 (List.length l)) (map (transp i j) (seq 0 (List.length l)))).
  { apply NoDup_Permutation_bis; [apply seq_NoDup|now rewrite map_length|]. intros k Hk. apply in_map_iff. exists (transp i j k). split; [apply transp_twice|].
    apply in_seq in Hk. apply in_seq. unfold transp. destruct (k =? i), (k =? j); lia. }
  rewrite E. rewrite <- (map_map (transp i j) (fun k => nth k l d)). rewrite <- P.
  assert (I' : l = map (fun k => nth k l d) (seq 0 (List.length l))).
  { clear. apply nth_error_ext_eq. intro k. destruct (Nat.lt_ge_cases k (List.length l)) as [Hk|Hk].
    - rewrite (map_nth_error (fun k => nth k l d) k (seq 0 (List.length l)) (d := k)); [now apply nth_error_nth'|].
      rewrite (nth_error_nth' _ 0) by (rewrite seq_length; lia). f_equal. rewrite seq_nth by lia. reflexivity.
    - transitivity (@None B); [apply nth_error_None; lia|symmetry; apply nth_error_None; rewrite map_length, seq_length; lia]. }
  rewrite <- I'. reflexivity.
Qed.

Lemma fy_perm draw n l : (forall k, draw k <= k) -> n <= List.length l -> Permutation l (fy draw 0 n l).
Proof.
  intros D. induction n as [|n IH]; intro Hn; [reflexivity|]. rewrite fy_S. etransitivity; [apply IH; lia|]. pose proof (D n).
  eapply exchanged_perm; [| |apply swapped_exchanged]; rewrite fy_length; lia.
Qed.

Lemma fy_reaches : forall n g P, n <= List.length g -> Permutation P g -> (forall k, n <= k -> nth_error P k = nth_error g k) ->
  exists draw, (forall k, draw k <= k) /\ fy draw 0 n g = P.
Proof.
  induction n as [|n IH]; intros g P Hn HP Hk.
  - exists (fun _ => 0). split; [intro; lia|]. apply nth_error_ext_eq. intro k. symmetry. apply Hk. lia.
  - assert (LP : List.length P = List.length g) by now apply Permutation_length.
    destruct (nth_error g n) as [x|] eqn:Ex; [|apply nth_error_None in Ex; lia].
    (* x occurs in the first n+1 elements of P *)
    assert (Hx : In x (firstn (S n) P)).
    { assert (T : skipn (S n) P = skipn (S n) g).
      { apply nth_error_ext_eq. intro k.
        assert (NS : forall (l : list nat) m k, nth_error (skipn m l) k = nth_error l (m + k)).
        { clear. induction l as [|y l IH]; intros [|m] k; try reflexivity; [now destruct k|]. apply IH. }
        rewrite !NS. apply Hk. lia. }
      assert (F : Permutation (firstn (S n) P) (firstn (S n) g)).
      { apply (Permutation_app_inv_r (skipn (S n) g)). rewrite <- T at 1. rewrite !firstn_skipn. exact HP. }
      apply (Permutation_in _ (Permutation_sym F)). rewrite <- (firstn_skipn (S n) g) in Ex. rewrite nth_error_app1 in Ex by (rewrite firstn_length; lia).
      now apply nth_error_In in Ex. }
    apply In_nth_error in Hx as (j & Hj).
    assert (Hjn : j <= n). { assert (nth_error (firstn (S n) P) j <> None) by congruence. apply nth_error_Some in H. rewrite firstn_length in H. lia. }
    assert (HjP : nth_error P j = Some x). { rewrite <- (firstn_skipn (S n) P). rewrite nth_error_app1 by (rewrite firstn_length; lia). exact Hj. }
    assert (X := swapped_exchanged n j P ltac:(lia) ltac:(lia)).
    destruct (IH g (swapped n j P)) as (draw & D & F); [lia| | |].
    + rewrite <- (exchanged_perm n j P _ ltac:(lia) ltac:(lia) X). exact HP.
    + intros k Hnk. rewrite (proj2 X). destruct (Nat.eqb_spec k n) as [->|]; [congruence|]. destruct (Nat.eqb_spec k j); [lia|]. apply Hk. lia.
    + exists (fun k => if k =? n then j else draw k). split; [intro k; destruct (Nat.eqb_spec k n); [lia|apply D]|].
      rewrite fy_S. rewrite Nat.eqb_refl. replace (fy (fun k => if k =? n then j else draw k) 0 n g) with (fy draw 0 n g).
      * rewrite F. apply swapped_twice; lia.
      * unfold fy. assert (G : forall l m, (forall k, In k l -> k <> n) -> fold_left (fun l k => swapped k (draw k) l) l m = fold_left (fun l0 k => swapped k (if k =? n then j else draw k) l0) l m).
        { clear. induction l as [|a l IH]; intros m H; [reflexivity|]. cbn [fold_left]. destruct (Nat.eqb_spec a n) as [->|]; [exfalso; apply (H n); [now left|reflexivity]|].
          apply IH. intros k Hk. apply H. now right. }
        apply G. intros k Hkk. apply in_seq in Hkk. lia.
Qed.

Lemma fy_unique : forall n g d1 d2, n <= List.length g -> NoDup g -> (forall k, d1 k <= k) -> (forall k, d2 k <= k) ->
  fy d1 0 n g = fy d2 0 n g -> forall k, k < n -> d1 k = d2 k.
Proof.
  induction n as [|n IH]; intros g d1 d2 Hn ND D1 D2 E k Hk; [lia|]. rewrite !fy_S in E.
  destruct (nth_error g n) as [x|] eqn:Ex; [|apply nth_error_None in Ex; lia].
  pose proof (D1 n) as B1. pose proof (D2 n) as B2.
  assert (A : forall d, (forall k, d k <= k) -> nth_error (swapped n (d n) (fy d 0 n g)) (d n) = Some x).
  { intros d D. pose proof (D n). rewrite (proj2 (swapped_exchanged n (d n) (fy d 0 n g) ltac:(rewrite fy_length; lia) ltac:(rewrite fy_length; lia))).
    rewrite Nat.eqb_refl. destruct (Nat.eqb_spec (d n) n) as [Ed|]; rewrite fy_tail by (assumption || lia); [rewrite Ed|]; exact Ex. }
  assert (NDP : NoDup (swapped n (d1 n) (fy d1 0 n g))).
  { apply (Permutation_NoDup (l := g)); [|exact ND]. rewrite <- fy_S. apply fy_perm; [exact D1|lia]. }
  assert (En : d1 n = d2 n).
  { apply (proj1 (NoDup_nth_error _) NDP); [rewrite swapped_length, fy_length; lia|]. rewrite (A d1 D1), E. symmetry. apply (A d2 D2). }
  assert (E' : fy d1 0 n g = fy d2 0 n g).
  { rewrite <- (swapped_twice n (d1 n) (fy d1 0 n g)) by (rewrite fy_length; lia). rewrite E, En. apply swapped_twice; rewrite fy_length; lia. }
  destruct (Nat.eq_dec k n) as [->|]; [exact En|]. apply (IH g d1 d2); try assumption; lia.
Qed.

Section Shuffle.
  Variable A : Type.
  Notation quad := (A * A * A * A)%type.
  Definition view (g : list nat) (ps : list quad) : list (option quad) := map (nth_error ps) g.

  Lemma view_nth g (ps : list quad) k p : nth_error g k = Some p -> nth_error (view g ps) k = Some (nth_error ps p).
  Proof. apply map_nth_error. Qed.

  Lemma shuffle_view draw rest : (forall k, draw k <= k) -> forall todo index places ps, NoDup places ->
    index + todo <= List.length places -> (forall p, In p places -> p < List.length ps) ->
    exists ps', shuffle_from A todo index draw places (flat ps ++ rest) = Ok (flat ps' ++ rest) /\ List.length ps' = List.length ps /\
      view (fy draw index todo places) ps' = view places ps /\ (forall p, ~ In p places -> nth_error ps' p = nth_error ps p).
  Proof.
    intro D. induction todo as [|n IH]; intros index places ps ND Hl Hp.
    - exists ps. repeat split.
    - cbn [shuffle_from]. unfold fy. cbn [seq fold_left]. fold (fy draw (S index) n (swapped index (draw index) places)).
      destruct (Nat.eqb_spec index (draw index)) as [E|NE].
      + rewrite <- E, swapped_same by lia. apply IH; [assumption|lia|assumption].
      + pose proof (D index) as Dj. destruct (swap_places_ok places index (draw index) ltac:(lia) ltac:(lia)) as (places' & -> & X). cbn [bind].
        assert (EP : places' = swapped index (draw index) places) by (eapply exchanged_unique; [exact X|apply swapped_exchanged; lia]).
        rewrite <- EP. assert (L' : List.length places' = List.length places) by apply X.
        assert (PP : Permutation places places') by (eapply exchanged_perm; [| |exact X]; lia).
        destruct (nth_error places' index) as [a|] eqn:Ea; [|apply nth_error_None in Ea; lia].
        destruct (nth_error places' (draw index)) as [b|] eqn:Eb; [|apply nth_error_None in Eb; lia]. cbn [of_opt bind].
        assert (Ha : In a places) by (eapply exchanged_in; [exact X|now apply nth_error_In in Ea]).
        assert (Hb : In b places) by (eapply exchanged_in; [exact X|now apply nth_error_In in Eb]).
        destruct (swap_flat A ps rest a b (Hp a Ha) (Hp b Hb)) as (ps1 & X1 & ->). cbn [bind].
        destruct (IH (S index) places' ps1) as (ps' & R & L1 & V & O).
        * exact (Permutation_NoDup PP ND).
        * lia.
        * intros p Hpp. rewrite (proj1 X1). apply Hp. now apply (Permutation_in _ (Permutation_sym PP)).
        * exists ps'. split; [exact R|]. split; [rewrite L1; apply X1|]. split.
          -- rewrite V. apply nth_error_ext_eq. intro k. destruct (nth_error places k) as [p|] eqn:Ek.
             ++ assert (Hk : k < List.length places) by (apply nth_error_Some; congruence).
                destruct (nth_error places' k) as [q|] eqn:Ek'; [|apply nth_error_None in Ek'; lia].
                rewrite (view_nth _ _ _ _ Ek'), (view_nth _ _ _ _ Ek). f_equal. rewrite (proj2 X1).
                assert (Xk := proj2 X k). rewrite Ek' in Xk.
                assert (Xi := proj2 X index). rewrite Nat.eqb_refl, Ea in Xi.
                assert (Xj := proj2 X (draw index)). rewrite Nat.eqb_refl, Eb in Xj. destruct (Nat.eqb_spec (draw index) index); [lia|].
                assert (U : forall i j y, nth_error places i = Some y -> nth_error places j = Some y -> i = j).
                { intros i j y Hi Hj. apply (proj1 (NoDup_nth_error places) ND); [apply nth_error_Some; congruence|congruence]. }
                destruct (Nat.eqb_spec k index) as [->|Nk].
                ** assert (q = a) by congruence. subst q. rewrite Nat.eqb_refl. assert (b = p) by congruence. now subst.
                ** destruct (Nat.eqb_spec k (draw index)) as [->|Nk2].
                   --- assert (q = b) by congruence. subst q. assert (a = p) by congruence. subst p.
                       destruct (Nat.eqb_spec b a) as [->|]; [reflexivity|]. now rewrite Nat.eqb_refl.
                   --- assert (q = p) by congruence. subst q. destruct (Nat.eqb_spec p a) as [->|].
                       { exfalso. apply Nk2. now apply (U _ _ a). }
                       destruct (Nat.eqb_spec p b) as [->|]; [|reflexivity]. exfalso. apply Nk. now apply (U _ _ b).
             ++ replace (nth_error (view places ps) k) with (@None (option quad)) by (symmetry; apply nth_error_None; unfold view; rewrite map_length; now apply nth_error_None).
                apply nth_error_None. unfold view. rewrite map_length, L'. now apply nth_error_None.
          -- intros p Hn. rewrite O by (intro; apply Hn; now apply (Permutation_in _ (Permutation_sym PP))). rewrite (proj2 X1).
             destruct (Nat.eqb_spec p a) as [->|]; [contradiction|]. destruct (Nat.eqb_spec p b) as [->|]; [contradiction|reflexivity].
  Qed.

  Lemma shuffle_reaches g P ps rest : NoDup g -> (forall p, In p g -> p < List.length ps) -> Permutation P g ->
    exists draw ps', (forall k, draw k <= k) /\ shuffle_from A (List.length g) 0 draw g (flat ps ++ rest) = Ok (flat ps' ++ rest) /\
      List.length ps' = List.length ps /\
      (forall k p q, nth_error g k = Some p -> nth_error P k = Some q -> nth_error ps' q = nth_error ps p) /\
      (forall p, ~ In p g -> nth_error ps' p = nth_error ps p).
  Proof.
    intros ND Hp HP. destruct (fy_reaches (List.length g) g P (le_n _) HP) as (draw & D & F).
    - intros k Hk. transitivity (@None nat); [apply nth_error_None; rewrite (Permutation_length HP); lia|symmetry; now apply nth_error_None].
    - destruct (shuffle_view draw rest D (List.length g) 0 g ps ND ltac:(lia) Hp) as (ps' & R & L & V & O).
      exists draw, ps'. split; [exact D|]. split; [exact R|]. split; [exact L|]. split; [|exact O]. intros k p q Hk Hq. rewrite F in V.
      pose proof (view_nth P ps' k q Hq) as V1. rewrite V, (view_nth g ps k p Hk) in V1. congruence.
  Qed.

  Lemma shuffle_unique g ps rest d1 d2 e : NoDup g -> (forall p, In p g -> p < List.length ps) -> NoDup ps -> (forall k, d1 k <= k) -> (forall k, d2 k <= k) ->
    shuffle_from A (List.length g) 0 d1 g (flat ps ++ rest) = Ok e -> shuffle_from A (List.length g) 0 d2 g (flat ps ++ rest) = Ok e ->
    forall k, k < List.length g -> d1 k = d2 k.
  Proof.
    intros ND Hp NDp D1 D2 E1 E2.
    destruct (shuffle_view d1 rest D1 (List.length g) 0 g ps ND ltac:(lia) Hp) as (ps1 & R1 & L1 & V1 & O1).
    destruct (shuffle_view d2 rest D2 (List.length g) 0 g ps ND ltac:(lia) Hp) as (ps2 & R2 & L2 & V2 & O2).
    assert (EF : flat ps1 ++ rest = flat ps2 ++ rest) by congruence. apply app_inv_tail in EF.
    assert (EP : ps1 = ps2).
    { assert (FI : forall a b : list quad, flat a = flat b -> a = b).
      { clear. induction a as [|[[[x y] z] t] a IH]; intros [|[[[x' y'] z'] t'] b] H; cbn in H; try discriminate; [reflexivity|].
        injection H as -> -> -> -> H. f_equal. now apply IH. }
      now apply FI. }
    subst ps2. apply (fy_unique (List.length g) g d1 d2 (le_n _) ND D1 D2).
    set (P1 := fy d1 0 (List.length g) g) in *. set (P2 := fy d2 0 (List.length g) g) in *.
    assert (LP1 : List.length P1 = List.length g) by apply fy_length. assert (LP2 : List.length P2 = List.length g) by apply fy_length.
    assert (I1 : forall p, In p P1 -> p < List.length ps) by (intros p H; apply Hp; apply (Permutation_in _ (Permutation_sym (fy_perm d1 (List.length g) g D1 (le_n _)))); exact H).
    assert (I2 : forall p, In p P2 -> p < List.length ps) by (intros p H; apply Hp; apply (Permutation_in _ (Permutation_sym (fy_perm d2 (List.length g) g D2 (le_n _)))); exact H).
    (* the contents at the places are distinct *)
    assert (ND1 : forall p q, p < List.length ps -> q < List.length ps -> nth_error ps1 p = nth_error ps1 q -> p = q).
    { assert (NP : NoDup ps1).
      { destruct (shuffle_ok A (repeat 0 (List.length ps)) (Some 0) d1 rest D1 (List.length g) 0 g ps ltac:(lia)) as (ps1' & R1' & RR).
        - intros p H. specialize (Hp p H). split; [exact Hp|]. rewrite (nth_error_nth' _ 0) by (rewrite repeat_length; lia).
          f_equal. apply (repeat_spec (List.length ps)). apply nth_In. rewrite repeat_length. lia.
        - assert (ps1' = ps1).
          { assert (EF' : flat ps1' ++ rest = flat ps1 ++ rest) by congruence. apply app_inv_tail in EF'.
            assert (FI : forall a b : list quad, flat a = flat b -> a = b).
            { clear. induction a as [|[[[x y] z] t] a IH]; intros [|[[[x' y'] z'] t'] b] H; cbn in H; try discriminate; [reflexivity|].
              injection H as -> -> -> -> H. f_equal. now apply IH. }
            now apply FI. }
          subst ps1'. destruct RR as (LL & f & h & HF & HG & HH). apply NoDup_nth_error. intros i j Hi Hj.
          assert (S1 : forall i, i < List.length ps -> h i < List.length ps).
          { (* f is injective on a finite interval, hence onto *)
            intros i0 Hi0. assert (Hin : In i0 (map f (seq 0 (List.length ps)))).
            { assert (Pm : Permutation (map f (seq 0 (List.length ps))) (seq 0 (List.length ps))).
              { apply NoDup_Permutation_bis.
                - apply FinFun.Injective_map_NoDup; [|apply seq_NoDup]. intros x y E. rewrite <- (HF x), <- (HF y), E. reflexivity.
                - now rewrite map_length.
                - intros x Hx. apply in_map_iff in Hx as (y & <- & Hy). apply in_seq in Hy. apply in_seq. destruct (HH y ltac:(lia)). lia. }
              apply (Permutation_in _ (Permutation_sym Pm)). apply in_seq. lia. }
            apply in_map_iff in Hin as (y & <- & Hy). apply in_seq in Hy. rewrite HF. lia. }
          assert (Hj' : j < List.length ps1) by (apply nth_error_Some; rewrite <- Hj; apply nth_error_Some; exact Hi).
          rewrite LL in Hi, Hj'. pose proof (HH (h i) (S1 i Hi)) as (_ & _ & Ei). pose proof (HH (h j) (S1 j Hj')) as (_ & _ & Ej).
          rewrite HG in Ei, Ej. assert (h i = h j). { apply (proj1 (NoDup_nth_error ps) NDp); [apply S1; exact Hi|congruence]. }
          rewrite <- (HG i), <- (HG j). congruence. }
      intros p q Hpp Hqq E. apply (proj1 (NoDup_nth_error ps1) NP); [lia|exact E]. }
    apply nth_error_ext_eq. intro k. destruct (Nat.lt_ge_cases k (List.length g)) as [Hk|Hk].
    - destruct (nth_error P1 k) as [p|] eqn:Ep; [|apply nth_error_None in Ep; lia]. destruct (nth_error P2 k) as [q|] eqn:Eq; [|apply nth_error_None in Eq; lia].
      f_equal. apply ND1; [apply I1; now apply nth_error_In in Ep|apply I2; now apply nth_error_In in Eq|].
      pose proof (view_nth P1 ps1 k p Ep) as V1'. pose proof (view_nth P2 ps1 k q Eq) as V2'. rewrite V1 in V1'. rewrite V2 in V2'. congruence.
    - transitivity (@None nat); [apply nth_error_None; lia|symmetry; apply nth_error_None; lia].
  Qed.
End Shuffle.
