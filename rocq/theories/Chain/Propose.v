(** Proposals, and the assembled constructor. *)
From Coq Require Import Reals List Lia Permutation Lra.
From Verif.Common Require Import Prelude.
From Verif.Phsp Require Import Model Spec Proofs.
From Verif.Chain Require Import Model Spec Kinematics Layout Fill.
Import ListNotations.
Local Open Scope nat_scope.

Section Propose.
  Variable N : nat.
  Variable m0 : nat -> R.
  Variable u : nat -> R.
  Hypothesis U : uniform u.
  Variable ns : list node.
  Hypothesis Rf : forall j n, nth_error ns j = Some n ->
    (nl n < N \/ j + N < nl n < N + List.length ns) /\ (nr n < N \/ j + N < nr n < N + List.length ns).

  Definition written (st : nat -> option R) (i : nat) : Prop :=
    (forall j, j < N -> st j = Some (m0 j * m0 j)%R) /\
    forall j n, i <= j -> nth_error ns j = Some n -> exists s k, st (j + N) = Some s /\ sample n (u k) = Some s.
  Definition physical (st : nat -> option R) (j : nat) (n : node) : Prop :=
    exists s sl sr, st (j + N) = Some s /\ st (nl n) = Some sl /\ st (nr n) = Some sr /\ (sl + sr + 2 * sqrt (sl * sr) < s)%R.

  Lemma written_ref st i r : written st i -> (r < N \/ i + N <= r < N + List.length ns) -> exists s, st r = Some s.
  Proof.
    intros [A B] [H|H]; [eauto|]. destruct (nth_error ns (r - N)) as [n|] eqn:E; [|apply nth_error_None in E; lia].
    destruct (B (r - N) n ltac:(lia) E) as (s & k & Es & _). replace (r - N + N) with r in Es by lia. eauto.
  Qed.

  (** Either a result with everything written, or a number that does not exist. *)
  Lemma propose_ok rest : forall i, (forall j, nth_error rest j = nth_error ns (i + j)) -> i + List.length rest = List.length ns ->
    propose N m0 u i rest = Throw \/
    exists st w k, propose N m0 u i rest = Ok (st, w, k) /\ written st i /\ (0 <= w)%R
      /\ ((0 < w)%R -> forall j n, i <= j -> nth_error ns j = Some n -> physical st j n)
      /\ ((forall j n, nth_error ns j = Some n -> set_up n /\ (0 < j -> (0 <= lo n)%R)) -> (0 < w)%R -> (w <= product N m0 ns rest)%R).
  Proof.
    induction rest as [|n rest IH]; intros i Hn Hl; cbn [propose].
    - right. eexists _, _, _. split; [reflexivity|]. cbn in Hl. split; [|split; [lra|split]].
      + split.
        * intros j J. rewrite (proj2 (Nat.ltb_lt j N)) by auto. reflexivity.
        * intros j n I E. assert (j < List.length ns) by (apply nth_error_Some; congruence). lia.
      + intros _ j n I E. assert (j < List.length ns) by (apply nth_error_Some; congruence). lia.
      + cbn [product]. intros _ _. lra.
    - assert (En : nth_error ns i = Some n) by (specialize (Hn 0); cbn [nth_error] in Hn; rewrite Nat.add_0_r in Hn; auto).
      destruct (IH (S i)) as [-> |(st & w & k & -> & W & W0 & Ph & Bd)].
      { intros j. specialize (Hn (S j)). cbn [nth_error] in Hn. rewrite Hn. f_equal. lia. }
      { cbn [List.length] in Hl. lia. }
      { left; reflexivity. }
      cbn [bind]. destruct (sample n (u k)) as [s|] eqn:Es; [|left; reflexivity]. right.
      set (st' := put st (i + N) (Some s)).
      assert (Other : forall j, j <> i + N -> st' j = st j) by (intros j J; unfold st', put; destruct (Nat.eqb_spec j (i + N)); congruence).
      assert (Here : st' (i + N) = Some s) by (unfold st', put; rewrite Nat.eqb_refl; reflexivity).
      destruct (Rf i n En) as [Rl Rr].
      destruct (written_ref st (S i) (nl n) W ltac:(lia)) as [sl El]. destruct (written_ref st (S i) (nr n) W ltac:(lia)) as [sr Er].
      rewrite !Other by lia. rewrite El, Er. eexists _, _, _. split; [reflexivity|].
      set (v := (rho_2 s sl sr * (if rlt (sl + sr + 2 * sqrt (sl * sr)) s then 1 else 0))%R).
      assert (Pos : (0 < (if rlt v 0 then 0 else v * w))%R -> (0 < w)%R /\ (0 < v)%R /\ (sl + sr + 2 * sqrt (sl * sr) < s)%R /\ v = rho_2 s sl sr).
      { destruct (rlt v 0) eqn:Q; [lra|]. apply rlt_false in Q. intros H. assert (0 < w)%R by nra. assert (V : (0 < v)%R) by nra. split; auto. split; auto.
        unfold v in *. destruct (rlt (sl + sr + 2 * sqrt (sl * sr)) s) eqn:Q2; [|lra]. apply rlt_true in Q2. split; auto. ring. }
      split; [|split; [|split]].
      + split.
        * intros j J. rewrite Other by lia. apply W; auto.
        * intros j n0 I E. destruct (Nat.eq_dec j i) as [->|Ne].
          -- assert (n0 = n) by congruence. subst n0. exists s, k. auto.
          -- rewrite Other by lia. apply W; auto. lia.
      + destruct (rlt v 0) eqn:Q; [lra|]. apply rlt_false in Q. apply Rmult_le_pos; auto.
      + intros Hw j n0 I E. destruct (Pos Hw) as (Pw & _ & T & _). destruct (Nat.eq_dec j i) as [->|Ne].
        * assert (n0 = n) by congruence. subst n0. exists s, sl, sr. rewrite (Other (nl n)), (Other (nr n)) by lia. auto.
        * destruct (Ph Pw j n0 ltac:(lia) E) as (s' & sl' & sr' & A1 & A2 & A3 & A4). exists s', sl', sr'.
          destruct (Rf j n0 E) as [Rl' Rr']. rewrite !Other by lia. auto.
      + intros HS Hw. destruct (Pos Hw) as (Pw & Pv & T & Ev). specialize (Bd HS Pw). cbn [product].
        destruct (rlt v 0) eqn:Q; [lra|]. rewrite Ev. rewrite Ev in Pv.
        assert (Lo : forall r x, (r < N \/ i + N < r < N + List.length ns) -> st r = Some x -> (0 <= lo_at N m0 ns 0 r <= x)%R).
        { intros r x Hr Ex. unfold lo_at. destruct W as [Wl Wn]. destruct (Nat.ltb_spec r N) as [Lt|Ge].
          - rewrite (Wl r Lt) in Ex. injection Ex as <-. split; [apply Rle_0_sqr|lra].
          - rewrite Nat.sub_0_r. destruct (nth_error ns (r - N)) as [n0|] eqn:E0; [|apply nth_error_None in E0; lia].
            destruct (Wn (r - N) n0 ltac:(lia) E0) as (x' & k' & Ex' & Esm). replace (r - N + N) with r in Ex' by lia.
            assert (x' = x) by congruence. subst x'. destruct (HS (r - N) n0 E0) as [Su L0]. specialize (L0 ltac:(lia)).
            pose proof (sample_range n0 (u k') x Su ltac:(pose proof (U k'); lra) Esm). lra. }
        destruct (HS i n En) as [Su _]. pose proof (sample_range n (u k) s Su ltac:(pose proof (U k); lra) Es) as Rs.
        pose proof (Lo (nl n) sl ltac:(lia) El). pose proof (Lo (nr n) sr ltac:(lia) Er).
        destruct (rho_mono s (hi n) sl (lo_at N m0 ns 0 (nl n)) sr (lo_at N m0 ns 0 (nr n))) as [_ Mn]; auto; [lra|].
        rewrite Rmult_comm. apply Rmult_le_compat; lra.
  Qed.

  Lemma sound_tree st t : written st 0 -> (forall j n, nth_error ns j = Some n -> physical st j n) -> (forall k, (0 <= m0 k)%R) ->
    rep N ns t -> sound N m0 st t.
  Proof.
    intros [Wl _] Ph M0. induction t as [k|i a IHa b IHb]; cbn [rep sound]; intros R; [auto|].
    destruct R as ((n & E & El & Er & _) & _ & _ & Ra & Rb). split; auto.
    destruct (Ph i n E) as (s & sl & sr & A1 & A2 & A3 & A4). exists s, sl, sr. rewrite <- El, <- Er. auto.
  Qed.
End Propose.

(** *** The constructor *)
Lemma fold_spare fs : forall x, fold_left (fun acc (x : nat * R) => (acc - snd x)%R) fs x = (x - fold_right Rplus 0 (map snd fs))%R.
Proof. induction fs as [|[k m] fs IH]; intros x; cbn [fold_left map fold_right snd]; [lra|]. rewrite IH. lra. Qed.

Section Construct.
  Variable swaps : particle -> particle -> bool.
  Variable renamed : attrs -> attrs.
  Variable nonres : attrs.

  (** A final state particle of a chain. *)
  Lemma find_mass p k m : NoDup (map fst (finals p)) -> In (k, m) (finals p) -> mass_of p k = m.
  Proof.
    unfold mass_of. generalize (finals p). induction l as [|[k' m'] l IH]; cbn [map fst]; intros ND I; [destruct I|].
    inversion ND as [|? ? H1 H2]; subst. cbn [find fst]. destruct I as [E|I].
    - injection E as -> ->. rewrite Nat.eqb_refl. reflexivity.
    - destruct (Nat.eqb_spec k' k) as [->|]; [|apply IH; auto]. exfalso. apply H1. apply (in_map fst) in I. exact I.
  Qed.

  Lemma mass_of_nonneg p : decays p -> forall k, (0 <= mass_of p k)%R.
  Proof.
    intros D k. unfold mass_of. destruct (find _ (finals p)) as [[k' m]|] eqn:E; [|lra]. apply find_some in E. destruct E as [I _].
    revert p D k' m I. fix IH 1. intros [k0 m0|a ds] D k' m I; cbn [finals] in I.
    - destruct I as [E|[]]. injection E as <- <-. exact D.
    - cbn [decays] in D. destruct D as [_ D]. clear - IH D I. induction ds as [|d ds IHd]; cbn [flat_map] in I; [destruct I|].
      cbn [fold_right] in D. apply in_app_iff in I. destruct I as [I|I].
      + exact (IH d (proj1 D) k' m I).
      + exact (IHd (proj2 D) I).
  Qed.

  Definition spare_of (p : particle) : R := (pmass p - fold_right Rplus 0 (map snd (finals p)))%R.

  Lemma decays_part q p : part q p -> decays p -> decays q.
  Proof.
    induction 1 as [|a d ds I P IH]; [auto|]. intros [_ D]. apply IH. apply (decays_list swaps renamed nonres) in D. rewrite Forall_forall in D. apply D. exact I.
  Qed.

  Lemma rep_subtree N ns s t : rep N ns t -> subtree s t -> rep N ns s.
  Proof.
    induction t as [k|i a IHa b IHb]; intros R [->|H]; auto; [destruct H|].
    cbn [rep] in R. destruct R as (_ & _ & _ & Ra & Rb). destruct H; auto.
  Qed.

  (** What holds of the constructed nodes. *)
  Record built (p : particle) (ns : list node) (prod : R) (t : dt) : Prop := Built {
    b_len : List.length ns = List.length (finals p) - 1;
    b_ref : ref (List.length (finals p)) t = 0 + List.length (finals p);
    b_rep : rep (List.length (finals p)) ns t;
    b_leaves : Permutation (leaves t) (map fst (finals p));
    b_all : forall k, k < List.length ns -> In k (idxs t);
    b_refs : forall j n, nth_error ns j = Some n ->
      (nl n < List.length (finals p) \/ j + List.length (finals p) < nl n < List.length (finals p) + List.length ns)
      /\ (nr n < List.length (finals p) \/ j + List.length (finals p) < nr n < List.length (finals p) + List.length ns);
    b_parts : forall a ds, part (Decay a ds) p -> exists i n a' x y l r, nth_error ns i = Some n /\ Permutation (lfs n ++ rfs n) (map fst (finals (Decay a ds)))
      /\ binary swaps renamed nonres a ds = Ok (a', x, y) /\ n = with_leaves (node_for (spare_of p) i a' x y l r) (lfs n) (rfs n);
    b_prod : prod = product (List.length (finals p)) (mass_of p) ns ns }.

  Lemma construct_ok (Pp : particle -> Prop) (Q : nat -> node -> Prop) p fuel :
    (forall a ds a' x y, Pp (Decay a ds) -> binary swaps renamed nonres a ds = Ok (a', x, y) ->
       Pp x /\ Pp y /\ forall i l r, Q i (node_for (spare_of p) i a' x y l r)) ->
    (forall i n a b, Q i n -> Q i (with_leaves n a b)) ->
    chain p -> Pp p -> stable p = false -> List.length (finals p) <= fuel ->
    exists ns prod t, built p ns prod t /\ (forall j n, nth_error ns j = Some n -> Q j n) /\
      construct swaps renamed nonres fuel p = match rsqrt prod with Some w => Ok (ns, w) | None => Throw end.
  Proof.
    intros HQ HQw (D & (ND & Bd) & Len) Hp St Fu. set (N := List.length (finals p)) in *.
    assert (V : inv swaps renamed nonres N (spare_of p) p [(p, 0)] 0 (repeat None (N - 1))).
    { constructor.
      - apply repeat_length.
      - constructor; [|constructor]. cbn [fst]. repeat split; auto.
      - cbn. unfold nf. fold N. lia.
      - cbn. repeat constructor. intros [].
      - intros q i [E|[]]. injection E as <- <-. split; [lia|]. destruct (N - 1) as [|m] eqn:En; [lia|]. reflexivity.
      - intros j _ J. revert j J. generalize (N - 1). intros m. induction m as [|m IH]; intros j J; [lia|]. destruct j; [reflexivity|]. cbn. apply IH. lia.
      - intros j J. right. cbn. lia.
      - apply g_pend. cbn; auto.
      - intros j n E. exfalso. revert j E. generalize (N - 1). intros m. induction m as [|m IH]; intros [|j] E; cbn in E; try discriminate. apply (IH j E). }
    destruct (layout_ok swaps renamed nonres N (spare_of p) p fuel [(p, 0)] 0 (repeat None (N - 1))) as (nodes & El & V'); auto.
    { cbn. unfold nf. fold N. lia. }
    destruct V' as [Vl _ _ _ _ _ Va Vg Vr].
    destruct (grow_tree swaps renamed nonres N (spare_of p) Pp Q nodes p (0 + N) HQ D Hp Vg) as (t & Rt & Rp & To).
    pose proof (tree_leaves swaps renamed nonres (spare_of p) nodes p t D To) as Pt.
    assert (Refs : refs_ok N 0 nodes).
    { intros j J. destruct (Va j ltac:(lia)) as [[n En]|[]]. exists n. split; auto. destruct (Vr j n En). lia. }
    destruct (finish_ok N (mass_of p) nodes 0 Refs) as (ns & w & Ef & Hlen & Hn & Hw).
    destruct (rep0_rep N Q nodes ns t Hn Rp) as [Rep _].
    assert (NDl : NoDup (leaves t)) by (eapply Permutation_NoDup; [symmetry; exact Pt|exact ND]).
    assert (Lt : List.length (leaves t) = N) by (rewrite (Permutation_length Pt), map_length; reflexivity).
    assert (All : forall k, k < List.length ns -> In k (idxs t)) by (apply (idxs_all N); auto; lia).
    assert (Nodes : forall j n, nth_error ns j = Some n -> exists n0, nth_error nodes j = Some (Some n0) /\ n = with_leaves n0 (leaves_at N ns 0 (nl n0)) (leaves_at N ns 0 (nr n0)) /\ Q j n0).
    { intros j n E. assert (J : j < List.length ns) by (apply nth_error_Some; congruence).
      destruct (rep0_idx N Q nodes t Rp j (All j J)) as (n0 & E0 & Q0). exists n0. repeat split; auto. pose proof (Hn j n0 E0). congruence. }
    exists ns, w, t. split; [|split].
    - constructor; fold N; auto.
      + lia.
      + intros j n E. destruct (Nodes j n E) as (n0 & E0 & -> & _). cbn [with_leaves nl nr]. destruct (Refs j) as (n1 & E1 & A & B).
        { apply nth_error_Some; congruence. }
        assert (n1 = n0) by congruence. subst n1. lia.
      + intros a ds Hpt. destruct (tree_part swaps renamed nonres (spare_of p) nodes p t To a ds D Hpt) as (i & a' & x & y & l & r & tx & ty & Eb & En & Tq & Ii).
        pose proof (Hn i _ En) as E. exists i, (with_leaves (node_for (spare_of p) i a' x y l r) (leaves_at N ns 0 l) (leaves_at N ns 0 r)), a', x, y, l, r.
        destruct (node_for_refs (spare_of p) i a' x y l r) as [El' Er']. rewrite El', Er' in E. repeat split; auto. cbn [with_leaves lfs rfs].
        assert (Dq : decays (Decay a ds)) by (eapply decays_part; eauto).
        pose proof (tree_leaves swaps renamed nonres (spare_of p) nodes _ _ Dq Tq) as Pq. cbn [leaves] in Pq. rewrite <- Pq.
        pose proof (rep_subtree N ns (B i tx ty) t Rep Ii) as Rs. cbn [rep] in Rs. destruct Rs as ((n' & En' & _ & _ & Fl & Fr) & _).
        assert (En2 : n' = with_leaves (node_for (spare_of p) i a' x y l r) (leaves_at N ns 0 l) (leaves_at N ns 0 r)) by congruence.
        rewrite En2 in Fl, Fr. cbn [with_leaves lfs rfs] in Fl, Fr. rewrite Fl, Fr. reflexivity.
    - intros j n E. destruct (Nodes j n E) as (n0 & _ & -> & Q0). apply HQw; auto.
    - unfold construct. fold N. rewrite fold_spare. fold (spare_of p). rewrite El. cbn [bind].
      change (fun k => match find (fun x => fst x =? k) (finals p) with Some (_, m) => m | None => 0%R end) with (mass_of p). rewrite Ef. reflexivity.
  Qed.
End Construct.
