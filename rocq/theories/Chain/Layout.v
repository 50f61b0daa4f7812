(** The nodes built by the constructor are those of a binary tree of the final state particles. *)
From Coq Require Import Reals List Lia Permutation Lra.
From Verif.Common Require Import Prelude Writes.
From Verif.Phsp Require Import Model Spec Proofs.
From Verif.Chain Require Import Model Spec Kinematics.
Import ListNotations.
Local Open Scope nat_scope.

Inductive dt := L (k : nat) | B (i : nat) (a b : dt).
Fixpoint leaves (t : dt) : list nat := match t with L k => [k] | B _ a b => leaves a ++ leaves b end.
Fixpoint idxs (t : dt) : list nat := match t with L _ => [] | B i a b => i :: idxs a ++ idxs b end.

Lemma leaves_not_nil t : leaves t <> [].
Proof. induction t as [k|i a IHa b IHb]; cbn; [discriminate|]. intros E. apply app_eq_nil in E. tauto. Qed.

Section Layout.
  Variable swaps : particle -> particle -> bool.
  Variable renamed : attrs -> attrs.
  Variable nonres : attrs.
  Variable N : nat.
  Variable spare : R.

  Definition ref (t : dt) : nat := match t with L k => k | B i _ _ => i + N end.
  Definition above (i : nat) (t : dt) : Prop := match t with L k => k < N | B j _ _ => i < j end.

  Definition nf (p : particle) : nat := List.length (finals p).

  Lemma decays_nf p : decays p -> 1 <= nf p.
  Proof.
    unfold nf. revert p. fix IH 1. intros [k m|a ds]; cbn [decays finals]; [cbn; lia|].
    intros (L & D). destruct ds as [|d ds]; [cbn in L; lia|]. cbn [flat_map]. rewrite app_length. destruct D as [D _].
    specialize (IH d D). lia.
  Qed.

  Lemma decays_list ds : fold_right (fun d P => decays d /\ P) True ds <-> Forall decays ds.
  Proof. induction ds; cbn; split; intros H; auto; [constructor; tauto|inversion H; subst; tauto]. Qed.

  Lemma sum_nf ds : Forall decays ds -> List.length ds <= List.length (flat_map finals ds).
  Proof. induction 1; cbn [flat_map List.length]; [lia|]. rewrite app_length. pose proof (decays_nf x H). unfold nf in *. lia. Qed.

  Lemma decays_stable p : decays p -> stable p = true -> exists k m, p = Stable k m.
  Proof. destruct p as [k m|a ds]; intros D S; [eauto|]. destruct D as [D _]. destruct ds; [cbn in D; lia|discriminate]. Qed.
  Lemma decays_unstable p : decays p -> stable p = false -> exists a ds, p = Decay a ds.
  Proof. destruct p as [k m|a ds]; intros D S; [discriminate|eauto]. Qed.
  Lemma decay_nf a ds : decays (Decay a ds) -> 2 <= nf (Decay a ds).
  Proof. intros [D1 D2]. apply decays_list in D2. unfold nf. cbn [finals]. pose proof (sum_nf ds D2). lia. Qed.

  Lemma binary_ok a ds : decays (Decay a ds) -> exists a' x y, binary swaps renamed nonres a ds = Ok (a', x, y) /\ decays x /\ decays y
    /\ Permutation (finals (Decay a ds)) (finals x ++ finals y).
  Proof.
    intros [D1 D2]. apply decays_list in D2. destruct ds as [|x [|y [|z ds]]]; cbn [List.length] in D1; try lia.
    - inversion D2 as [|? ? Dx D2']; subst. inversion D2' as [|? ? Dy _]; subst. exists a, x, y. repeat split; auto.
      cbn [finals flat_map]. rewrite app_nil_r. reflexivity.
    - unfold binary. cbn [stable]. inversion D2 as [|? ? Dx D2']; subst.
      assert (Dy : decays (Decay nonres (y :: z :: ds))).
      { split; [cbn [List.length]; lia|]. apply decays_list; auto. }
      destruct (swaps x (Decay nonres (y :: z :: ds))).
      + exists (renamed a), (Decay nonres (y :: z :: ds)), x. repeat split; auto; try apply Dy.
        cbn [finals]. cbn [flat_map]. rewrite (Permutation_app_comm (finals x)). reflexivity.
      + exists (renamed a), x, (Decay nonres (y :: z :: ds)). repeat split; auto; apply Dy.
  Qed.

  (** The node written for a particle. *)
  Definition node_for (index : nat) (a : attrs) (x y : particle) (l r : nat) : node :=
    let min_mass := qsum (Decay a [x; y]) in
    let G := (if quasi a then 0 else amass a * awidth a * 10)%R in
    let s0 := (amass a * amass a)%R in
    if Nat.eqb index 0 || quasi a then node_set a l r (s0 - G)%R (s0 + G)%R
    else node_set a l r (min_mass * min_mass)%R ((spare + min_mass) * (spare + min_mass))%R.

  Lemma node_set_refs a l r x y : nl (node_set a l r x y) = l /\ nr (node_set a l r x y) = r.
  Proof. unfold node_set. destruct (quasi a), (flat a); auto. Qed.
  Lemma node_for_refs i a x y l r : nl (node_for i a x y l r) = l /\ nr (node_for i a x y l r) = r.
  Proof. unfold node_for. destruct (_ || _); apply node_set_refs. Qed.

  (** [p] stands at [r], completely built except for the pending particles. *)
  Inductive grow (pend : list (particle * nat)) (nodes : list (option node)) : particle -> nat -> Prop :=
  | g_leaf k m : k < N -> grow pend nodes (Stable k m) k
  | g_pend p i : In (p, i) pend -> grow pend nodes p (i + N)
  | g_node a ds a' x y i l r : binary swaps renamed nonres a ds = Ok (a', x, y) -> nth_error nodes i = Some (Some (node_for i a' x y l r)) ->
      grow pend nodes x l -> grow pend nodes y r -> (l < N \/ i + N < l) -> (r < N \/ i + N < r) -> grow pend nodes (Decay a ds) (i + N).

  (** Moving on: the pending [cur] at [i] is written, its daughters become pending. *)
  Lemma grow_step pend pend' nodes nodes' cur i p r0 :
    (forall q j, In (q, j) pend -> In (q, j) pend' \/ (q = cur /\ j = i)) ->
    (forall j n, nth_error nodes j = Some (Some n) -> nth_error nodes' j = Some (Some n)) ->
    grow pend' nodes' cur (i + N) -> grow pend nodes p r0 -> grow pend' nodes' p r0.
  Proof.
    intros Hp Hn Hc G. induction G as [k m K|q j I|a ds a' x y j l r Eb En Gx IHx Gy IHy Hl Hr].
    - constructor; auto.
    - destruct (Hp q j I) as [I'|[-> ->]]; [apply g_pend; auto|exact Hc].
    - eapply g_node; eauto.
  Qed.

  Definition need (todo : list (particle * nat)) : nat := list_sum (map (fun x => nf (fst x) - 1) todo).
  Definition spareN (todo : list (particle * nat)) : nat := list_sum (map (fun x => nf (fst x) - 2) todo).

  Lemma need_cons p i todo : need ((p, i) :: todo) = nf p - 1 + need todo.
  Proof. reflexivity. Qed.
  Lemma spareN_cons p i todo : spareN ((p, i) :: todo) = nf p - 2 + spareN todo.
  Proof. reflexivity. Qed.

  Record inv (root : particle) (todo : list (particle * nat)) (counter : nat) (nodes : list (option node)) : Prop := Inv {
    i_len : List.length nodes = N - 1;
    i_dec : Forall (fun x => decays (fst x) /\ stable (fst x) = false /\ Forall (fun k => k < N) (map fst (finals (fst x)))) todo;
    i_cnt : counter + spareN todo + 2 = N;
    i_nd : NoDup (map snd todo);
    i_none : forall p i, In (p, i) todo -> i <= counter /\ nth_error nodes i = Some None;
    i_new : forall j, counter < j -> j < N - 1 -> nth_error nodes j = Some None;
    i_all : forall j, j <= counter -> (exists n, nth_error nodes j = Some (Some n)) \/ In j (map snd todo);
    i_grow : grow todo nodes root (0 + N);
    i_refs : forall j n, nth_error nodes j = Some (Some n) -> (nl n < N \/ j + N < nl n <= counter + N) /\ (nr n < N \/ j + N < nr n <= counter + N) }.

  Lemma layout_ok root fuel : forall todo counter nodes, need todo <= fuel -> inv root todo counter nodes ->
    exists nodes', layout swaps renamed nonres N fuel spare todo counter nodes = Ok nodes' /\ inv root [] (N - 2) nodes'.
  Proof.
    induction fuel as [|fuel IH]; intros todo counter nodes F V.
    - destruct todo as [|[cur i] todo].
      + exists nodes. split; [reflexivity|]. destruct V. cbn [spareN map list_sum fold_right] in *. replace (N - 2) with counter by lia.
        constructor; auto.
      + exfalso. destruct V as [_ D _ _ _ _ _ _]. inversion D as [|? ? (D1 & D2 & D3) _]; subst. cbn [fst] in *.
        destruct (decays_unstable _ D1 D2) as (a & ds & ->). pose proof (decay_nf _ _ D1). rewrite need_cons in F. lia.
    - destruct todo as [|[cur i] todo].
      + exists nodes. split; [reflexivity|]. destruct V. cbn [spareN map list_sum fold_right] in *. replace (N - 2) with counter by lia.
        constructor; auto.
      + destruct V as [Vl Vd Vc Vn Vo Vw Va Vg Vr]. inversion Vd as [|? ? (D1 & D2 & D3) Vd']; subst. cbn [fst] in *.
        destruct (decays_unstable _ D1 D2) as (a0 & ds & ->).
        destruct (binary_ok a0 ds D1) as (a & x & y & Eb & Dx & Dy & P).
        cbn [layout]. rewrite Eb. cbn [bind].
        pose proof (decays_nf x Dx) as Nx. pose proof (decays_nf y Dy) as Ny.
        assert (Nc : nf (Decay a0 ds) = nf x + nf y) by (unfold nf; rewrite (Permutation_length P), app_length; reflexivity).
        assert (Fx : Forall (fun k => k < N) (map fst (finals x)) /\ Forall (fun k => k < N) (map fst (finals y))).
        { apply (Permutation_map fst) in P. rewrite map_app in P. apply (Permutation_Forall P) in D3. apply Forall_app in D3. exact D3. }
        destruct Fx as [Fx Fy].
        assert (Hi : i <= counter /\ nth_error nodes i = Some None) by (apply (Vo (Decay a0 ds)); left; reflexivity).
        assert (Il : i < List.length nodes) by (apply nth_error_Some; destruct Hi as [_ ->]; discriminate).
        set (l := if stable x then pindex x else S counter + N). set (c1 := if stable x then counter else S counter).
        set (t1 := if stable x then todo else (x, S counter) :: todo).
        set (r := if stable y then pindex y else S c1 + N). set (c2 := if stable y then c1 else S c1).
        set (t2 := if stable y then t1 else (y, S c1) :: t1).
        assert (E1 : (if stable x then (pindex x, counter, todo) else (S counter + N, S counter, (x, S counter) :: todo)) = (l, c1, t1))
          by (unfold l, c1, t1; destruct (stable x); reflexivity).
        rewrite E1.
        assert (E2 : (if stable y then (pindex y, c1, t1) else (S c1 + N, S c1, (y, S c1) :: t1)) = (r, c2, t2))
          by (unfold r, c2, t2; destruct (stable y); reflexivity).
        rewrite E2. fold (node_for i a x y l r).
        destruct (set_at_Some i (Some (node_for i a x y l r)) nodes Il) as (nodes' & -> & Hl & Hk).
        rewrite need_cons in F. rewrite spareN_cons in Vc.
        assert (St : need t2 + 1 <= S fuel + 0 /\ c2 + spareN t2 + 2 = N).
        { unfold t2, t1, c2, c1. destruct (stable x) eqn:Sx, (stable y) eqn:Sy; rewrite ?need_cons, ?spareN_cons.
          - destruct (decays_stable x Dx Sx) as (x0 & x1 & ->). destruct (decays_stable y Dy Sy) as (x2 & x3 & ->). change (nf (Stable x0 x1)) with 1 in *; change (nf (Stable x2 x3)) with 1 in *. lia.
          - destruct (decays_stable x Dx Sx) as (k & m & ->). destruct (decays_unstable y Dy Sy) as (? & ? & ->). pose proof (decay_nf _ _ Dy). change (nf (Stable k m)) with 1 in *. lia.
          - destruct (decays_stable y Dy Sy) as (k & m & ->). destruct (decays_unstable x Dx Sx) as (? & ? & ->). pose proof (decay_nf _ _ Dx). change (nf (Stable k m)) with 1 in *. lia.
          - destruct (decays_unstable x Dx Sx) as (? & ? & ->). destruct (decays_unstable y Dy Sy) as (? & ? & ->).
            pose proof (decay_nf _ _ Dx). pose proof (decay_nf _ _ Dy). lia. }
        destruct St as [Sf Sc].
        assert (T2in : forall q j, In (q, j) t2 -> In (q, j) todo \/ (q = x /\ j = S counter /\ stable x = false) \/ (q = y /\ j = S c1 /\ stable y = false)).
        { unfold t2, t1. intros q j I. destruct (stable x), (stable y); cbn [In] in I;
            repeat match goal with H : _ \/ _ |- _ => destruct H as [H|H] end; try (injection I as <- <-); auto. }
        assert (Todo2 : forall q j, In (q, j) todo -> In (q, j) t2).
        { unfold t2, t1. intros q j I. destruct (stable x), (stable y); cbn [In]; auto. }
        assert (C1 : counter <= c1 <= c2) by (unfold c2, c1; destruct (stable x), (stable y); lia).
        inversion Vn as [|? ? Vn1 Vn2]; subst.
        apply IH; [lia|]. constructor.
        * lia.
        * unfold t2, t1. destruct (stable x) eqn:Sx, (stable y) eqn:Sy; repeat apply Forall_cons; cbn [fst]; auto.
        * lia.
        * assert (Bd : forall j, In j (map snd todo) -> j <= counter).
          { intros j I. apply in_map_iff in I. destruct I as ([q j'] & <- & I). apply (Vo q j'). right; auto. }
          unfold t2, t1, c1. destruct (stable x), (stable y); cbn [map snd]; auto; repeat apply NoDup_cons; auto; cbn [In]; intros I;
            repeat match goal with H : _ \/ _ |- _ => destruct H as [H|H] end; try (apply Bd in I); try lia.
        * intros q j I. rewrite Hk. destruct (T2in q j I) as [I'|[(-> & -> & Sx)|(-> & -> & Sy)]].
          -- destruct (Vo q j (or_intror I')) as [A1 A2]. split; [lia|]. destruct (Nat.eqb_spec j i) as [->|]; auto.
             exfalso. apply Vn1. apply (in_map snd) in I'. exact I'.
          -- assert (c1 = S counter) by (unfold c1; rewrite Sx; reflexivity). split; [lia|].
             destruct (Nat.eqb_spec (S counter) i); [lia|]. apply Vw; lia.
          -- assert (c2 = S c1) by (unfold c2; rewrite Sy; reflexivity). split; [lia|].
             destruct (Nat.eqb_spec (S c1) i); [lia|]. apply Vw; lia.
        * intros j J1 J2. rewrite Hk. destruct (Nat.eqb_spec j i); [lia|]. apply Vw; lia.
        * intros j J. rewrite Hk. destruct (Nat.eqb_spec j i) as [->|Nj]; [left; eauto|].
          destruct (le_lt_dec j counter) as [J1|J1].
          -- destruct (Va j J1) as [S|I]; auto. right. cbn [map snd In] in I. destruct I as [I|I]; [congruence|].
             apply in_map_iff in I. destruct I as ([q j'] & E & I). cbn [snd] in E. subst j'. apply (in_map snd _ _ (Todo2 q j I)).
          -- right. unfold t2, t1, c2, c1 in *. destruct (stable x), (stable y); cbn [map snd In] in *; lia.
        * eapply (grow_step ((Decay a0 ds, i) :: todo) t2 nodes nodes' (Decay a0 ds) i); [| | |exact Vg].
          -- intros q j [E|I]; [injection E as <- <-; auto|left; auto].
          -- intros j n E. rewrite Hk. destruct (Nat.eqb_spec j i) as [->|]; auto. destruct Hi as [_ Hi]. congruence.
          -- apply (g_node t2 nodes' a0 ds a x y i l r Eb).
             ++ rewrite Hk, Nat.eqb_refl. reflexivity.
             ++ unfold l. destruct (stable x) eqn:Sx.
                ** destruct (decays_stable x Dx Sx) as (k & m & ->). cbn [pindex]. apply g_leaf. cbn in Fx. inversion Fx; auto.
                ** apply g_pend. unfold t2, t1. destruct (stable y); cbn [In]; auto.
             ++ unfold r. destruct (stable y) eqn:Sy.
                ** destruct (decays_stable y Dy Sy) as (k & m & ->). cbn [pindex]. apply g_leaf. cbn in Fy. inversion Fy; auto.
                ** apply g_pend. unfold t2. cbn [In]; auto.
             ++ unfold l. destruct (stable x) eqn:Sx; [|right; lia].
                destruct (decays_stable x Dx Sx) as (k & m & ->). cbn [pindex]. left. cbn in Fx. inversion Fx; auto.
             ++ unfold r. destruct (stable y) eqn:Sy; [|right; lia].
                destruct (decays_stable y Dy Sy) as (k & m & ->). cbn [pindex]. left. cbn in Fy. inversion Fy; auto.
        * intros j n E. rewrite Hk in E. destruct (Nat.eqb_spec j i) as [->|Nj].
          -- assert (n = node_for i a x y l r) by congruence. subst n. destruct (node_for_refs i a x y l r) as [-> ->].
             assert (Pl : forall z, decays z -> stable z = true -> Forall (fun k => k < N) (map fst (finals z)) -> pindex z < N).
             { intros z Dz Sz Fz. destruct (decays_stable z Dz Sz) as (k & m & ->). cbn in Fz. inversion Fz; auto. }
             unfold l, r, c2, c1. destruct (stable x) eqn:Sx, (stable y) eqn:Sy; split; try (left; apply Pl; auto; fail); right; lia.
          -- destruct (Vr j n E). lia.
  Qed.

  (** The tree, without and with the lists of final state particles. *)
  Fixpoint rep0 (Q : nat -> node -> Prop) (nodes : list (option node)) (t : dt) : Prop :=
    match t with
    | L k => k < N
    | B i a b => (exists n, nth_error nodes i = Some (Some n) /\ nl n = ref a /\ nr n = ref b /\ Q i n) /\ above i a /\ above i b /\ rep0 Q nodes a /\ rep0 Q nodes b
    end.

  (** The tree of a particle. *)
  Inductive tree_of (nodes : list (option node)) : particle -> dt -> Prop :=
  | t_leaf k m : tree_of nodes (Stable k m) (L k)
  | t_node a ds a' x y i l r tx ty : binary swaps renamed nonres a ds = Ok (a', x, y) -> nth_error nodes i = Some (Some (node_for i a' x y l r)) ->
      tree_of nodes x tx -> tree_of nodes y ty -> tree_of nodes (Decay a ds) (B i tx ty).

  Lemma grow_tree (Pp : particle -> Prop) (Q : nat -> node -> Prop) nodes p r0 :
    (forall a ds a' x y, Pp (Decay a ds) -> binary swaps renamed nonres a ds = Ok (a', x, y) -> Pp x /\ Pp y /\ forall i l r, Q i (node_for i a' x y l r)) ->
    decays p -> Pp p -> grow [] nodes p r0 ->
    exists t, ref t = r0 /\ rep0 Q nodes t /\ tree_of nodes p t.
  Proof.
    intros HQ D Hp G. induction G as [k m K|q j I|a ds a' x y j l r Eb En Gx IHx Gy IHy Hl Hr].
    - exists (L k). repeat split; auto. constructor.
    - destruct I.
    - destruct (binary_ok a ds D) as (a'' & x' & y' & Eb' & Dx & Dy & P). rewrite Eb in Eb'. injection Eb' as <- <- <-.
      destruct (HQ a ds a' x y Hp Eb) as (Qx & Qy & Qn).
      destruct (IHx Dx Qx) as (tx & Rx & Rpx & Px). destruct (IHy Dy Qy) as (ty & Ry & Rpy & Py).
      assert (Ab : forall t l, ref t = l -> rep0 Q nodes t -> (l < N \/ j + N < l) -> above j t).
      { intros [k|i' ? ?] l0 <- Rp Hd; cbn [ref above rep0] in *; [lia|]. lia. }
      exists (B j tx ty). split; [reflexivity|split].
      + cbn [rep0]. split; [|repeat split; eauto].
        eexists; split; [exact En|]. destruct (node_for_refs j a' x y l r) as [-> ->]. auto.
      + econstructor; eauto.
  Qed.

  Lemma tree_leaves nodes p t : decays p -> tree_of nodes p t -> Permutation (leaves t) (map fst (finals p)).
  Proof.
    intros D T. induction T as [k m|a ds a' x y i l r tx ty Eb En Tx IHx Ty IHy]; [reflexivity|].
    destruct (binary_ok a ds D) as (a'' & x' & y' & Eb' & Dx & Dy & P). rewrite Eb in Eb'. injection Eb' as <- <- <-.
    cbn [leaves]. rewrite (IHx Dx), (IHy Dy), <- map_app. apply Permutation_map. symmetry; exact P.
  Qed.

  Fixpoint subtree (s t : dt) : Prop := s = t \/ match t with L _ => False | B _ a b => subtree s a \/ subtree s b end.

  (** Every decay within the particle has a node: with its attributes and final state particles. *)
  Lemma tree_part nodes p t : tree_of nodes p t -> forall a ds, decays p -> part (Decay a ds) p ->
    exists i a' x y l r tx ty, binary swaps renamed nonres a ds = Ok (a', x, y) /\ nth_error nodes i = Some (Some (node_for i a' x y l r))
      /\ tree_of nodes (Decay a ds) (B i tx ty) /\ subtree (B i tx ty) t.
  Proof.
    intros T. induction T as [k m|a ds a' x y i l r tx ty Eb En Tx IHx Ty IHy]; intros a0 ds0 D Pt.
    - inversion Pt.
    - destruct (binary_ok a ds D) as (a'' & x' & y' & Eb' & Dx & Dy & P). rewrite Eb in Eb'. injection Eb' as <- <- <-.
      assert (C : Decay a0 ds0 = Decay a ds \/ part (Decay a0 ds0) x \/ part (Decay a0 ds0) y).
      { inversion Pt as [|? d ? I Pd]; subst; [auto|right].
        destruct ds as [|x0 [|y0 [|z0 ds']]]; cbn [binary] in Eb; try discriminate.
        - injection Eb as <- <- <-. destruct I as [<-|[<-|[]]]; auto.
        - cbn [stable] in Eb.
          assert (H : part (Decay a0 ds0) x0 \/ part (Decay a0 ds0) (Decay nonres (y0 :: z0 :: ds'))).
          { destruct I as [<-|I]; [auto|right]. eapply part_in; eauto. }
          destruct (swaps x0 (Decay nonres (y0 :: z0 :: ds'))); injection Eb as <- <- <-; tauto. }
      destruct C as [E|[C|C]].
      + injection E as -> ->. exists i, a', x, y, l, r, tx, ty. repeat split; auto; [econstructor; eauto|left; reflexivity].
      + destruct (IHx a0 ds0 Dx C) as (j & b & x1 & y1 & l1 & r1 & t1 & t2 & A1 & A2 & A3 & A4).
        exists j, b, x1, y1, l1, r1, t1, t2. repeat split; auto. right; auto.
      + destruct (IHy a0 ds0 Dy C) as (j & b & x1 & y1 & l1 & r1 & t1 & t2 & A1 & A2 & A3 & A4).
        exists j, b, x1, y1, l1, r1, t1, t2. repeat split; auto. right; auto.
  Qed.

  Definition leaves_at (ns : list node) (i j : nat) : list nat :=
    if Nat.ltb j N then [j] else match nth_error ns (j - N - i) with Some n => lfs n ++ rfs n | None => [] end.
  Definition lo_at (m0 : nat -> R) (ns : list node) (i j : nat) : R :=
    if Nat.ltb j N then (m0 j * m0 j)%R else match nth_error ns (j - N - i) with Some n => lo n | None => 0%R end.

  (** References of the nodes go to final state particles or to later nodes. *)
  Definition refs_ok (i : nat) (nodes : list (option node)) : Prop :=
    forall j, j < List.length nodes -> exists n, nth_error nodes j = Some (Some n)
      /\ (nl n < N \/ i + j + N < nl n < N + i + List.length nodes) /\ (nr n < N \/ i + j + N < nr n < N + i + List.length nodes).

  Fixpoint product (m0 : nat -> R) (full : list node) (ns : list node) : R :=
    match ns with
    | [] => 1%R
    | n :: rest => (product m0 full rest * rho_2 (hi n) (lo_at m0 full 0 (nl n)) (lo_at m0 full 0 (nr n)))%R
    end.

  Lemma finish_ok m0 : forall nodes i, refs_ok i nodes -> exists ns w, finish N m0 i nodes = Ok (ns, w) /\ List.length ns = List.length nodes
    /\ (forall j n, nth_error nodes j = Some (Some n) -> nth_error ns j = Some (with_leaves n (leaves_at ns i (nl n)) (leaves_at ns i (nr n))))
    /\ (forall full, (forall j, nth_error ns j = nth_error full (i + j)) -> w = product m0 full ns).
  Proof.
    induction nodes as [|[n|] nodes IH]; intros i Rf; cbn [finish].
    - exists [], 1%R. repeat split; auto. intros [|j] n; discriminate.
    - assert (Rf' : refs_ok (S i) nodes).
      { intros j J. destruct (Rf (S j) ltac:(cbn; lia)) as (n' & E & A & B). exists n'. split; [exact E|]. cbn [List.length] in *. lia. }
      destruct (IH (S i) Rf') as (later & w & -> & Hlen & Hn & Hw). cbn [bind].
      destruct (Rf 0 ltac:(cbn; lia)) as (n' & E & A & B). injection E as <-. cbn [List.length] in A, B. rewrite Nat.add_0_r in A, B.
      assert (Sl : forall r a b, (r < N \/ i + N < r < N + i + S (List.length nodes)) ->
                leaves_of N i later r = Ok (leaves_at (with_leaves n a b :: later) i r)
                /\ smin N m0 i later r = Ok (lo_at m0 (with_leaves n a b :: later) i r)).
      { intros r a b Hr. unfold leaves_of, smin, leaves_at, lo_at, behind. destruct (Nat.ltb_spec r N); [auto|].
        replace (Nat.ltb (N + i) r) with true by (symmetry; apply Nat.ltb_lt; lia).
        replace (r - N - i) with (S (r - N - S i)) by lia. cbn [nth_error].
        destruct (nth_error later (r - N - S i)) as [x|] eqn:Ex; [auto|]. apply nth_error_None in Ex. lia. }
      rewrite (proj2 (Sl (nl n) [] [] A)). cbn [bind]. rewrite (proj2 (Sl (nr n) [] [] B)). cbn [bind].
      rewrite (proj1 (Sl (nl n) [] [] A)). cbn [bind]. rewrite (proj1 (Sl (nr n) [] [] B)). cbn [bind].
      eexists _, _. split; [reflexivity|].
      set (a := leaves_at (with_leaves n [] [] :: later) i (nl n)). set (b := leaves_at (with_leaves n [] [] :: later) i (nr n)).
      assert (La : forall r c d, (r < N \/ i + N < r) -> leaves_at (with_leaves n c d :: later) i r = leaves_at (with_leaves n a b :: later) i r).
      { intros r c d Hr. unfold leaves_at. destruct (Nat.ltb_spec r N); [auto|]. replace (r - N - i) with (S (r - N - S i)) by lia. reflexivity. }
      assert (Ls : forall r, (r < N \/ S i + N <= r) -> leaves_at later (S i) r = leaves_at (with_leaves n a b :: later) i r).
      { intros r Hr. unfold leaves_at. destruct (Nat.ltb_spec r N); [auto|]. replace (r - N - i) with (S (r - N - S i)) by lia. reflexivity. }
      split; [cbn [List.length]; lia|split].
      + intros [|j] n0 E0; cbn [nth_error] in *.
        * injection E0 as <-. f_equal. f_equal; [apply La; lia|apply La; lia].
        * rewrite (Hn j n0 E0). destruct (Rf' j) as (n1 & E1 & A1 & B1); [apply nth_error_Some; congruence|].
          assert (n1 = n0) by congruence. subst n1. rewrite !Ls by lia. reflexivity.
      + intros full Hf. cbn [product]. rewrite (Hw full) by (intros j; specialize (Hf (S j)); cbn [nth_error] in Hf; rewrite Hf; f_equal; lia).
        cbn [with_leaves nl nr hi]. f_equal.
        assert (Lo : forall r, (r < N \/ i + N < r) -> lo_at m0 (with_leaves n [] [] :: later) i r = lo_at m0 full 0 r).
        { intros r Hr. unfold lo_at. destruct (Nat.ltb_spec r N); [auto|]. rewrite Nat.sub_0_r.
          specialize (Hf (r - N - i)). replace (i + (r - N - i)) with (r - N) in Hf by lia. rewrite <- Hf.
          replace (r - N - i) with (S (r - N - S i)) by lia. reflexivity. }
        rewrite !Lo by lia. reflexivity.
    - destruct (Rf 0 ltac:(cbn; lia)) as (n' & E & _). discriminate.
  Qed.

  Fixpoint rep (ns : list node) (t : dt) : Prop :=
    match t with
    | L k => k < N
    | B i a b => (exists n, nth_error ns i = Some n /\ nl n = ref a /\ nr n = ref b /\ lfs n = leaves a /\ rfs n = leaves b)
                 /\ above i a /\ above i b /\ rep ns a /\ rep ns b
    end.

  Lemma rep0_idx Q nodes t : rep0 Q nodes t -> forall k, In k (idxs t) -> exists n, nth_error nodes k = Some (Some n) /\ Q k n.
  Proof.
    induction t as [k|i a IHa b IHb]; cbn [rep0 idxs]; intros R k0 I; [destruct I|].
    destruct R as ((n & E & _ & _ & Hq) & _ & _ & Ra & Rb). destruct I as [<-|I]; [eauto|]. apply in_app_iff in I. destruct I; auto.
  Qed.

  Lemma rep0_rep Q nodes ns t :
    (forall j n, nth_error nodes j = Some (Some n) -> nth_error ns j = Some (with_leaves n (leaves_at ns 0 (nl n)) (leaves_at ns 0 (nr n)))) ->
    rep0 Q nodes t -> rep ns t /\ leaves_at ns 0 (ref t) = leaves t.
  Proof.
    intros H. induction t as [k|i a IHa b IHb]; cbn [rep0 rep ref leaves].
    - intros K. split; auto. unfold leaves_at. replace (Nat.ltb k N) with true by (symmetry; apply Nat.ltb_lt; auto). reflexivity.
    - intros ((n & E & El & Er & _) & A & B & Ra & Rb). destruct (IHa Ra) as [Ra' La]. destruct (IHb Rb) as [Rb' Lb].
      pose proof (H i n E) as E'. rewrite El, Er, La, Lb in E'. split.
      + split; [|auto]. exists (with_leaves n (leaves a) (leaves b)). repeat split; auto.
      + unfold leaves_at. replace (Nat.ltb (i + N) N) with false by (symmetry; apply Nat.ltb_ge; lia).
        replace (i + N - N - 0) with i by lia. rewrite E'. reflexivity.
  Qed.
End Layout.
