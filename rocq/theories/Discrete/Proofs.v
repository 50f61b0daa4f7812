(** Proofs about DiscreteDistribution. *)
From Coq Require Import Reals List Lra Lia Psatz.
From Verif.Common Require Import Prelude.
From Verif.Phsp Require Import Model Proofs.
From Verif.Discrete Require Import Model Spec.
Import ListNotations.
Local Open Scope R_scope.

Fixpoint mass (j : nat) (st : list (R * nat)) : R :=
  match st with [] => 0 | (p, i) :: st' => (if Nat.eqb i j then p else 0) + mass j st' end.
Definition whole (st : list (R * nat)) : R := total (map fst st).

Lemma whole_cons x st : whole (x :: st) = fst x + whole st.
Proof. reflexivity. Qed.

Section Mix.
  Variable N : nat.
  Hypothesis N0 : (0 < N)%nat.
  Notation e := (unit_length N).

  Lemma e_pos : 0 < e.
  Proof. unfold unit_length. apply Rdiv_lt_0_compat; [lra|]. apply lt_0_INR; auto. Qed.
  Lemma N_e : INR N * e = 1.
  Proof. unfold unit_length. field. apply not_0_INR. lia. Qed.

  Definition at_ (k : nat) : R := INR k * e.
  Lemma at_S k : at_ (S k) = at_ k + e.
  Proof. unfold at_. rewrite S_INR. ring. Qed.
  Lemma at_0 : at_ 0 = 0.
  Proof. unfold at_. cbn [INR]. ring. Qed.
  Lemma at_N : at_ N = 1.
  Proof. apply N_e. Qed.
  Lemma at_le j k : (j <= k)%nat -> at_ j <= at_ k.
  Proof. intros H. unfold at_. apply Rmult_le_compat_r; [pose proof e_pos; lra|]. apply le_INR; auto. Qed.

  (** Where a bucket changes from its first to its second index. *)
  Definition cut (k : nat) (b : bucket) : R := Rmax (snd b) (at_ k).
  Definition good (k : nat) (b : bucket) : Prop := snd b <= at_ (S k).
  Definition cont (j k : nat) (b : bucket) : R :=
    (if Nat.eqb (fst (fst b)) j then cut k b - at_ k else 0) + (if Nat.eqb (snd (fst b)) j then at_ (S k) - cut k b else 0).
  Fixpoint conts (j k : nat) (bs : list bucket) : R := match bs with [] => 0 | b :: bs' => cont j k b + conts j (S k) bs' end.
  Fixpoint goods (k : nat) (bs : list bucket) : Prop := match bs with [] => True | b :: bs' => good k b /\ goods (S k) bs' end.

  Lemma conts_app j a : forall k b, conts j k (a ++ b) = conts j k a + conts j (k + List.length a) b.
  Proof.
    induction a as [|x a IH]; intros k b; cbn [app conts List.length]; [rewrite Nat.add_0_r; ring|].
    rewrite IH. replace (k + S (List.length a))%nat with (S k + List.length a)%nat by lia. ring.
  Qed.
  Lemma goods_app a : forall k b, goods k (a ++ b) <-> goods k a /\ goods (k + List.length a) b.
  Proof.
    induction a as [|x a IH]; intros k b; cbn [app goods List.length]; [rewrite Nat.add_0_r; tauto|].
    rewrite IH. replace (k + S (List.length a))%nat with (S k + List.length a)%nat by lia. tauto.
  Qed.

  Definition inside (st : list (R * nat)) : Prop := Forall (fun x => (snd x < N)%nat) st.
  Definition within (bs : list bucket) : Prop := Forall (fun b => (fst (fst b) < N)%nat /\ (snd (fst b) < N)%nat) bs.

  Lemma mix_ok : forall fuel i small large acc (P : nat -> R),
    (List.length small + List.length large <= fuel)%nat -> (List.length small + List.length large + i = N)%nat -> List.length acc = i ->
    Forall (fun x => 0 <= fst x < e) small -> Forall (fun x => e <= fst x) large ->
    whole small + whole large = INR (N - i) * e -> inside small -> inside large -> within acc -> goods 0 acc ->
    (forall j, mass j small + mass j large + conts j 0 acc = P j) ->
    exists large' acc', mix N fuel i small large acc = Ok ([], large', acc')
      /\ (List.length acc' + List.length large' = N)%nat /\ Forall (fun x => fst x = e) large' /\ inside large' /\ within acc' /\ goods 0 acc'
      /\ forall j, mass j large' + conts j 0 acc' = P j.
  Proof.
    pose proof e_pos as E0.
    assert (End : forall large, Forall (fun x => e <= fst x) large -> INR (List.length large) * e <= whole large
                  /\ (whole large = INR (List.length large) * e -> Forall (fun x => fst x = e) large)).
    { induction 1 as [|x l H1 H2 [IH1 IH2]]; [split; [unfold whole; cbn; lra|constructor]|].
      cbn [List.length]. rewrite S_INR, whole_cons. split; [lra|]. intros Q. constructor; [lra|apply IH2; lra]. }
    assert (EndS : forall small, Forall (fun x => 0 <= fst x < e) small -> whole small = INR (List.length small) * e -> small = []).
    { intros small H. destruct small as [|x small]; auto. intros Q. exfalso.
      assert (L : forall l, Forall (fun x => 0 <= fst x < e) l -> whole l <= INR (List.length l) * e).
      { induction 1; [unfold whole; cbn; lra|]. cbn [List.length]. rewrite S_INR, whole_cons. lra. }
      inversion H as [|? ? H1 H2]; subst. specialize (L small H2). rewrite whole_cons in Q. cbn [List.length] in Q. rewrite S_INR in Q. lra. }
    assert (Fin : forall i small large acc P, (small = [] \/ large = []) -> (List.length small + List.length large + i = N)%nat -> List.length acc = i ->
       Forall (fun x => 0 <= fst x < e) small -> Forall (fun x => e <= fst x) large -> whole small + whole large = INR (N - i) * e ->
       inside large -> within acc -> goods 0 acc -> (forall j, mass j small + mass j large + conts j 0 acc = P j) ->
       exists large' acc', (Ok (small, large, acc) : res (list (R * nat) * list (R * nat) * list bucket)) = Ok ([], large', acc') /\ (List.length acc' + List.length large' = N)%nat /\ Forall (fun x => fst x = e) large'
         /\ inside large' /\ within acc' /\ goods 0 acc' /\ forall j, mass j large' + conts j 0 acc' = P j).
    { intros i small large acc P Em Sz La Sm Lg Wh Il Wa Ga Ma.
      assert (S0 : small = []).
      { destruct Em as [|Lx]; auto. apply EndS; auto. subst large. cbn [List.length] in Sz. replace (N - i)%nat with (List.length small) in Wh by lia.
        unfold whole in Wh at 2. cbn in Wh. lra. }
      subst small. exists large, acc. split; [reflexivity|]. cbn [List.length] in Sz. split; [lia|]. split; [|split; [auto|split; [auto|split; [auto|]]]].
      - apply End; auto. replace (N - i)%nat with (List.length large) in Wh by lia. unfold whole in Wh at 1. cbn in Wh. lra.
      - intros j. rewrite <- Ma. cbn [mass]. ring. }
    induction fuel as [|fuel IH]; intros i small large acc P Fu Sz La Sm Lg Wh Is Il Wa Ga Ma.
    - destruct small as [|[ps js] small]; [|cbn in Fu; lia]. cbn [mix]. eapply Fin; eauto.
    - cbn [mix]. destruct small as [|[ps js] small]; [eapply Fin; eauto|]. destruct large as [|[pl jl] large]; [eapply Fin; eauto|].
      inversion Sm as [|? ? S1 S2]; subst. inversion Lg as [|? ? L1 L2]; subst. inversion Is as [|? ? I1 I2]; subst. inversion Il as [|? ? J1 J2]; subst.
      cbn [fst snd List.length] in *. set (lo := ps + pl - 1 / INR N). assert (El : lo = ps + pl - e) by reflexivity. clearbody lo.
      set (b := (js, jl, ps + INR (List.length acc) / INR N)).
      assert (Eb : snd b = ps + at_ (List.length acc)) by (unfold b, at_, unit_length; cbn [snd]; field; apply not_0_INR; lia).
      assert (Cut : cut (List.length acc) b = ps + at_ (List.length acc)) by (unfold cut; rewrite Eb; apply Rmax_left; lra).
      assert (Ga' : goods 0 (acc ++ [b])).
      { apply goods_app. split; auto. cbn [goods]. split; auto. unfold good. rewrite Eb, at_S. cbn [Nat.add]. lra. }
      assert (Wa' : within (acc ++ [b])) by (apply Forall_app; split; auto; constructor; auto).
      assert (Co : forall j, conts j 0 (acc ++ [b]) = conts j 0 acc + ((if Nat.eqb js j then ps else 0) + (if Nat.eqb jl j then e - ps else 0))).
      { intros j. rewrite conts_app. cbn [conts Nat.add]. unfold cont. rewrite Cut, at_S. unfold b; cbn [fst snd].
        destruct (Nat.eqb js j), (Nat.eqb jl j); ring. }
      assert (Wh' : whole small + whole large + lo = INR (N - S (List.length acc)) * e).
      { rewrite !whole_cons in Wh. cbn [fst] in Wh. replace (N - List.length acc)%nat with (S (N - S (List.length acc))) in Wh by lia.
        rewrite S_INR in Wh. lra. }
      destruct (rlt lo e) eqn:Q.
      + apply rlt_true in Q. apply (IH (S (List.length acc)) ((lo, jl) :: small) large (acc ++ [b]) P); cbn [List.length]; auto; try lia.
        * rewrite app_length; cbn; lia.
        * constructor; auto. cbn [fst]. lra.
        * rewrite whole_cons. cbn [fst]. lra.
        * constructor; auto.
        * intros j. rewrite Co, <- (Ma j). cbn [mass]. rewrite El. destruct (Nat.eqb js j), (Nat.eqb jl j); ring.
      + apply rlt_false in Q. apply (IH (S (List.length acc)) small ((lo, jl) :: large) (acc ++ [b]) P); cbn [List.length]; auto; try lia.
        * rewrite app_length; cbn; lia.
        * rewrite whole_cons. cbn [fst]. lra.
        * constructor; auto.
        * intros j. rewrite Co, <- (Ma j). cbn [mass]. rewrite El. destruct (Nat.eqb js j), (Nat.eqb jl j); ring.
  Qed.

  Lemma split_ok : forall ps i small large, Forall (fun p => 0 <= p) ps -> (i + List.length ps = N)%nat ->
    Forall (fun x => 0 <= fst x < e) small -> Forall (fun x => e <= fst x) large -> inside small -> inside large ->
    exists s l, split N ps i small large = (s, l) /\ Forall (fun x => 0 <= fst x < e) s /\ Forall (fun x => e <= fst x) l /\ inside s /\ inside l
      /\ (List.length s + List.length l = List.length small + List.length large + List.length ps)%nat
      /\ whole s + whole l = whole small + whole large + total ps
      /\ forall j, mass j s + mass j l = mass j small + mass j large + (if Nat.leb i j then nth (j - i) ps 0 else 0).
  Proof.
    induction ps as [|p ps IH]; intros i small large P0 Ln Sm Lg Is Il; cbn [split].
    - exists small, large. split; [reflexivity|]. do 4 (split; [assumption|]). split; [cbn [List.length]; lia|]. split; [unfold total; cbn [fold_right]; lra|]. intros j. destruct (Nat.leb i j), (j - i)%nat; cbn; ring.
    - inversion P0 as [|? ? P1 P2]; subst. cbn [List.length] in Ln.
      assert (Mj : forall j, (if Nat.eqb i j then p else 0) + (if Nat.leb (S i) j then nth (j - S i) ps 0 else 0) = (if Nat.leb i j then nth (j - i) (p :: ps) 0 else 0)).
      { intros j. destruct (Nat.eqb_spec i j) as [->|Ne].
        - rewrite Nat.leb_refl, Nat.sub_diag. replace (Nat.leb (S j) j) with false by (symmetry; apply Nat.leb_gt; lia). cbn; ring.
        - destruct (Nat.leb_spec (S i) j), (Nat.leb_spec i j); try lia; try ring. replace (j - i)%nat with (S (j - S i)) by lia. cbn [nth]. ring. }
      destruct (rlt p e) eqn:Q; [apply rlt_true in Q|apply rlt_false in Q].
      + assert (X1 : Forall (fun x => 0 <= fst x < e) ((p, i) :: small)) by (constructor; auto; cbn [fst]; lra).
        assert (X2 : inside ((p, i) :: small)) by (constructor; auto; cbn [snd]; lia).
        destruct (IH (S i) ((p, i) :: small) large) as (s & l & -> & A1 & A2 & A3 & A4 & A5 & A6 & A7); auto; try lia.
        exists s, l. split; [reflexivity|]. do 4 (split; [assumption|]). split; [|split].
        * cbn [List.length] in A5 |- *. lia.
        * rewrite A6, whole_cons. cbn [fst]. change (total (p :: ps)) with (p + total ps). ring.
        * intros j. rewrite A7. cbn [mass]. rewrite <- Mj. ring.
      + assert (X1 : Forall (fun x => e <= fst x) ((p, i) :: large)) by (constructor; auto; cbn [fst]; lra).
        assert (X2 : inside ((p, i) :: large)) by (constructor; auto; cbn [snd]; lia).
        destruct (IH (S i) small ((p, i) :: large)) as (s & l & -> & A1 & A2 & A3 & A4 & A5 & A6 & A7); auto; try lia.
        exists s, l. split; [reflexivity|]. do 4 (split; [assumption|]). split; [|split].
        * cbn [List.length] in A5 |- *. lia.
        * rewrite A6, whole_cons. cbn [fst]. change (total (p :: ps)) with (p + total ps). ring.
        * intros j. rewrite A7. cbn [mass]. rewrite <- Mj. ring.
  Qed.

  Lemma conts_pure j l : forall k, Forall (fun x => fst x = e) l -> conts j k (map pure l) = mass j l.
  Proof.
    induction l as [|[p i] l IH]; intros k F; cbn [map conts mass]; auto. inversion F as [|? ? F1 F2]; subst. rewrite IH by auto. f_equal.
    cbn [fst] in F1. unfold cont, cut, pure. cbn [fst snd]. rewrite Rmax_right.
    - rewrite at_S. destruct (Nat.eqb i j); lra.
    - unfold at_. apply Rmult_le_pos; [apply pos_INR|pose proof e_pos; lra].
  Qed.
  Lemma goods_pure l : forall k, goods k (map pure l).
  Proof.
    induction l as [|[p i] l IH]; intros k; cbn [map goods]; auto. split; auto. unfold good, pure. cbn [snd]. unfold at_.
    apply Rmult_le_pos; [apply pos_INR|pose proof e_pos; lra].
  Qed.

  Lemma buckets_ok ps fuel : List.length ps = N -> (N <= fuel)%nat -> Forall (fun p => 0 <= p) ps -> total ps = 1 ->
    exists bs, create_buckets fuel ps = Ok bs /\ List.length bs = N /\ within bs /\ goods 0 bs /\ forall j, conts j 0 bs = nth j ps 0.
  Proof.
    intros Ln Fu P0 T. unfold create_buckets. rewrite Ln. destruct (Nat.eqb_spec N 0); [lia|].
    destruct (split_ok ps 0 [] []) as (s & l & -> & A1 & A2 & A3 & A4 & A5 & A6 & A7); auto; try lia; try constructor.
    cbn [List.length] in A5. unfold whole in A6 at 3 4. cbn [map total fold_right] in A6.
    destruct (mix_ok fuel 0 s l [] (fun j => nth j ps 0)) as (l' & acc & -> & B1 & B2 & B3 & B4 & B5 & B6); auto; try lia; try (constructor).
    - rewrite A6, T, Nat.sub_0_r, N_e. unfold total; cbn. lra.
    - intros j. rewrite A7. cbn [mass conts Nat.leb]. rewrite Nat.sub_0_r. ring.
    - cbn [bind]. eexists. split; [reflexivity|]. cbn [map app]. rewrite app_nil_r. split; [|split; [|split]].
      + rewrite app_length, map_length. lia.
      + apply Forall_app. split; auto. apply Forall_map. eapply Forall_impl; [|exact B3]. intros [p i] H. cbn in *. auto.
      + apply goods_app. split; auto. apply goods_pure.
      + intros j. rewrite conts_app, conts_pure by auto. rewrite <- B6. ring.
  Qed.

  (** *** Drawing *)
  Definition pick (u : R) (b : bucket) : nat := if rlt u (snd b) then fst (fst b) else snd (fst b).
  Definition ivals1 (j k : nat) (b : bucket) : list (R * R) :=
    (if Nat.eqb (fst (fst b)) j then [(at_ k, cut k b)] else []) ++ (if Nat.eqb (snd (fst b)) j then [(cut k b, at_ (S k))] else []).
  Fixpoint ivals (j k : nat) (bs : list bucket) : list (R * R) := match bs with [] => [] | b :: bs' => ivals1 j k b ++ ivals j (S k) bs' end.

  Lemma cut_range k b : good k b -> at_ k <= cut k b <= at_ (S k).
  Proof. intros G. unfold cut. split; [apply Rmax_r|]. apply Rmax_lub; [exact G|apply at_le; lia]. Qed.

  Lemma ordered_weaken a a' b l : a' <= a -> ordered a b l -> ordered a' b l.
  Proof. destruct l as [|[x y] l]; cbn [ordered]; intros A H; [lra|]. destruct H as (H1 & H2 & H3). repeat split; auto; lra. Qed.

  Lemma ivals_ordered j bs : forall k, goods k bs -> ordered (at_ k) (at_ (k + List.length bs)) (ivals j k bs).
  Proof.
    induction bs as [|b bs IH]; intros k G; cbn [ivals List.length].
    - rewrite Nat.add_0_r. cbn. lra.
    - destruct G as [G1 G2]. specialize (IH (S k) G2). replace (k + S (List.length bs))%nat with (S k + List.length bs)%nat by lia.
      pose proof (cut_range k b G1) as Cr. unfold ivals1. destruct (Nat.eqb (fst (fst b)) j), (Nat.eqb (snd (fst b)) j); cbn [app ordered].
      + repeat split; try lra; auto.
      + repeat split; try lra. eapply ordered_weaken; [|exact IH]; lra.
      + repeat split; try lra; auto.
      + eapply ordered_weaken; [|exact IH]; lra.
  Qed.

  Lemma length_app l m : length_of (l ++ m) = length_of l + length_of m.
  Proof. unfold length_of. rewrite map_app. induction l as [|[x y] l IH]; cbn [map app fold_right]; [lra|]. rewrite IH. ring. Qed.

  Lemma ivals_length j bs : forall k, length_of (ivals j k bs) = conts j k bs.
  Proof.
    induction bs as [|b bs IH]; intros k; cbn [ivals conts]; [reflexivity|]. rewrite length_app, IH. f_equal.
    unfold ivals1, cont, length_of. destruct (Nat.eqb (fst (fst b)) j), (Nat.eqb (snd (fst b)) j); cbn; ring.
  Qed.

  Lemma covered_app l m u : covered (l ++ m) u <-> covered l u \/ covered m u.
  Proof.
    unfold covered. split.
    - intros (x & y & I & H). apply in_app_iff in I. destruct I; [left|right]; eauto.
    - intros [(x & y & I & H)|(x & y & I & H)]; exists x, y; split; auto; apply in_app_iff; auto.
  Qed.

  Lemma covered1 j k b u : good k b -> (covered (ivals1 j k b) u <-> at_ k <= u < at_ (S k) /\ pick u b = j).
  Proof.
    intros G. pose proof (cut_range k b G) as Cr. unfold ivals1. rewrite covered_app. unfold covered, pick.
    assert (K : at_ k <= u -> (rlt u (snd b) = true <-> u < cut k b)).
    { intros Hu. unfold cut. split.
      - intros H. apply rlt_true in H. pose proof (Rmax_l (snd b) (at_ k)). lra.
      - intros H. destruct (rlt u (snd b)) eqn:Q; auto. apply rlt_false in Q. unfold Rmax in H. destruct (Rle_dec (snd b) (at_ k)); lra. }
    split.
    - intros [(x & y & I & H)|(x & y & I & H)].
      + destruct (Nat.eqb_spec (fst (fst b)) j) as [E|]; [|destruct I]. destruct I as [I|[]]. injection I as <- <-.
        split; [lra|]. rewrite (proj2 (K ltac:(lra))) by lra. exact E.
      + destruct (Nat.eqb_spec (snd (fst b)) j) as [E|]; [|destruct I]. destruct I as [I|[]]. injection I as <- <-.
        split; [lra|]. destruct (rlt u (snd b)) eqn:Q; auto. assert (u < cut k b) by (apply K; [lra|reflexivity]). lra.
    - intros [H E]. destruct (rlt u (snd b)) eqn:Q.
      + left. assert (u < cut k b) by (apply K; [lra|reflexivity]). exists (at_ k), (cut k b). rewrite (proj2 (Nat.eqb_eq _ _) E). cbn. split; [auto|lra].
      + right. assert (~ u < cut k b) by (intros H'; apply K in H'; [discriminate|lra]).
        exists (cut k b), (at_ (S k)). rewrite (proj2 (Nat.eqb_eq _ _) E). cbn. split; [auto|lra].
  Qed.

  Lemma ivals_covered j u bs : forall k, goods k bs ->
    (covered (ivals j k bs) u <-> exists i b, nth_error bs i = Some b /\ at_ (k + i) <= u < at_ (S (k + i)) /\ pick u b = j).
  Proof.
    induction bs as [|b bs IH]; intros k G; cbn [ivals].
    - split; [intros (x & y & [] & _)|]. intros ([|i] & b & E & _); discriminate.
    - destruct G as [G1 G2]. rewrite covered_app, covered1, (IH (S k) G2) by auto. split.
      + intros [H|(i & b' & E & H)].
        * exists 0%nat, b. rewrite Nat.add_0_r. auto.
        * exists (S i), b'. replace (k + S i)%nat with (S k + i)%nat by lia. auto.
      + intros ([|i] & b' & E & H).
        * left. injection E as <-. rewrite Nat.add_0_r in H. exact H.
        * right. exists i, b'. replace (k + S i)%nat with (S k + i)%nat in H by lia. auto.
  Qed.

  Lemma index_of u : 0 <= u < 1 -> exists k, (k < N)%nat /\ Z.to_nat (Int_part (INR N * u)) = k /\ at_ k <= u < at_ (S k).
  Proof.
    intros U. pose proof (base_Int_part (INR N * u)) as [B1 B2]. pose proof (lt_0_INR N N0) as Np.
    set (z := Int_part (INR N * u)) in *.
    assert (Z0 : (0 <= z)%Z). { apply le_IZR. assert (-1 < IZR z) by nra. change (-1) with (IZR (-1)) in H. apply lt_IZR in H. apply IZR_le. lia. }
    exists (Z.to_nat z). assert (Ek : INR (Z.to_nat z) = IZR z) by (rewrite INR_IZR_INZ, Z2Nat.id; auto).
    assert (Inv : INR N * e = 1) by apply N_e. pose proof e_pos as E0. split; [|split; auto].
    - apply INR_lt. rewrite Ek. nra.
    - rewrite at_S. unfold at_. rewrite Ek. assert (u = INR N * u * e) by (rewrite Rmult_assoc, (Rmult_comm u), <- Rmult_assoc, Inv; ring). nra.
  Qed.

  Lemma draw_ok bs u : List.length bs = N -> within bs -> goods 0 bs -> 0 <= u < 1 ->
    exists k b, nth_error bs k = Some b /\ at_ k <= u < at_ (S k) /\ draw bs u = Ok (pick u b) /\ (pick u b < N)%nat.
  Proof.
    intros Ln W G U. destruct (index_of u U) as (k & K & Ek & Hk). unfold draw. rewrite Ln, Ek.
    destruct (nth_error bs k) as [b|] eqn:E; [|apply nth_error_None in E; lia]. exists k, b. split; auto. split; auto.
    destruct b as [[a c] t]. split; [reflexivity|]. unfold within in W. rewrite Forall_forall in W. destruct (W _ (nth_error_In _ _ E)) as [W1 W2].
    unfold pick. cbn in *. destruct (rlt u t); auto.
  Qed.

  Lemma draw_length bs : List.length bs = N -> within bs -> goods 0 bs -> forall j, has_length (fun u => draw bs u = Ok j) (conts j 0 bs).
  Proof.
    intros Ln W G j. exists (ivals j 0 bs). split; [|split].
    - pose proof (ivals_ordered j bs 0 G) as O. rewrite at_0 in O. cbn [Nat.add] in O. rewrite Ln, at_N in O. exact O.
    - apply ivals_length.
    - intros u U. rewrite ivals_covered by auto. destruct (draw_ok bs u Ln W G U) as (k & b & E & Hk & -> & _). split.
      + intros H. injection H as <-. exists k, b. auto.
      + intros (i & b' & E' & Hi & <-). cbn [Nat.add] in Hi. assert (i = k).
        { destruct (Nat.lt_trichotomy i k) as [L|[L|L]]; auto; exfalso.
          - pose proof (at_le (S i) k L). lra.
          - pose proof (at_le (S k) i L). lra. }
        subst i. congruence.
  Qed.
End Mix.

Lemma fold_total l : forall x, fold_left Rplus l x = x + total l.
Proof. induction l as [|y l IH]; intros x; cbn [fold_left]; [unfold total; cbn; lra|]. rewrite IH. change (total (y :: l)) with (y + total l). ring. Qed.

Lemma total_div l s : s <> 0 -> total (map (fun w => w / s) l) = total l / s.
Proof.
  intros S0. induction l as [|y l IH]; cbn [map]; [unfold total; cbn; field; auto|].
  change (y / s + total (map (fun w => w / s) l) = (y + total l) / s). rewrite IH. field; auto.
Qed.

Lemma probabilities_ok ws : Forall (fun w => 0 <= w) ws -> 0 < total ws ->
  exists ps, probabilities ws = Some ps /\ List.length ps = List.length ws /\ (0 < List.length ws)%nat /\ Forall (fun p => 0 <= p) ps /\ total ps = 1
    /\ forall j, nth j ps 0 = nth j ws 0 / total ws.
Proof.
  intros W T. unfold probabilities. destruct ws as [|w ws]; [unfold total in T; cbn in T; lra|].
  rewrite fold_total, Rplus_0_l. set (l := w :: ws) in *. destruct (Req_EM_T (total l) 0) as [Z|NZ]; [lra|].
  exists (map (fun w => w / total l) l). split; [reflexivity|]. split; [apply map_length|]. split; [unfold l; cbn; lia|]. split; [|split].
  - apply Forall_map. eapply Forall_impl; [|exact W]. intros x X. cbn in X. apply Rmult_le_pos; auto. apply Rlt_le, Rinv_0_lt_compat; auto.
  - rewrite total_div by auto. field; auto.
  - intros j. replace 0 with (0 / total l) at 1 by (field; auto). apply (map_nth (fun w => w / total l)).
Qed.
