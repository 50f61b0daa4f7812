(** The heap of regions. *)
From Verif.Common Require Import Prelude.
From Coq Require Import Reals Lra Permutation.
From Verif.Integrate Require Import Model.
Local Open Scope R_scope.

Definition dflt : integral := Integral 0 0 0 [] [].
Definition at_ (l : list integral) (i : nat) : integral := nth i l dflt.
Fixpoint upd (l : list integral) (i : nat) (x : integral) : list integral :=
  match l, i with [], _ => [] | _ :: r, O => x :: r | y :: r, S k => y :: upd r k x end.
Lemma get_ok l i : (i < List.length l)%nat -> get l i = Ok (at_ l i).
Proof. intro H. unfold get, at_. rewrite (nth_error_nth' l dflt H). reflexivity. Qed.
Lemma put_ok l i x : (i < List.length l)%nat -> put l i x = Ok (upd l i x).
Proof. revert i. induction l as [|y l IH]; intros [|i] H; cbn in *; try lia; [reflexivity|]. rewrite IH by lia. reflexivity. Qed.
Lemma upd_length l i x : List.length (upd l i x) = List.length l.
Proof. revert i. induction l as [|y l IH]; intros [|i]; cbn; auto. Qed.
Lemma at_upd_eq l i x : (i < List.length l)%nat -> at_ (upd l i x) i = x.
Proof. unfold at_. revert i. induction l as [|y l IH]; intros [|i] H; cbn in *; try lia; [reflexivity|]. apply IH. lia. Qed.
Lemma at_upd_neq l i j x : i <> j -> at_ (upd l i x) j = at_ l j.
Proof. unfold at_. revert i j. induction l as [|y l IH]; intros [|i] [|j] H; cbn; try lia; try reflexivity. apply IH. lia. Qed.
Lemma at_upd l i j x : (i < List.length l)%nat -> at_ (upd l i x) j = if Nat.eqb i j then x else at_ l j.
Proof. intro H. destruct (Nat.eqb_spec i j) as [<- |N]; [now apply at_upd_eq|now apply at_upd_neq]. Qed.

Definition cells (l : list integral) (lo n : nat) : list integral := map (at_ l) (seq lo n).
Lemma cells_ext l l' lo n : (forall i, (lo <= i < lo + n)%nat -> at_ l i = at_ l' i) -> cells l lo n = cells l' lo n.
Proof. intro H. unfold cells. apply map_ext_in. intros i Hi. apply in_seq in Hi. now apply H. Qed.
Definition swap (h c i : nat) : nat := if Nat.eqb i h then c else if Nat.eqb i c then h else i.
Lemma swap_perm h c lo n : (lo <= h < lo + n)%nat -> (lo <= c < lo + n)%nat -> Permutation (map (swap h c) (seq lo n)) (seq lo n).
Proof.
  intros Hh Hc. assert (Inv : forall i, swap h c (swap h c i) = i).
  { intro i. unfold swap. destruct (Nat.eqb_spec i h); [|destruct (Nat.eqb_spec i c)]; repeat (match goal with |- context [Nat.eqb ?a ?b] => destruct (Nat.eqb_spec a b) end); lia. }
  apply NoDup_Permutation; [|apply seq_NoDup|].
  - apply FinFun.Injective_map_NoDup; [|apply seq_NoDup]. intros i j E. rewrite <- (Inv i), E. apply Inv.
  - intro x. rewrite in_map_iff. split.
    + intros (i & <- & Hi). apply in_seq in Hi. apply in_seq. unfold swap. destruct (Nat.eqb i h); [lia|]. destruct (Nat.eqb i c); lia.
    + intro Hx. apply in_seq in Hx. exists (swap h c x). split; [apply Inv|]. apply in_seq. unfold swap. destruct (Nat.eqb x h); [lia|]. destruct (Nat.eqb x c); lia.
Qed.
(** moving an entry into the hole, and the hole to where it was *)
Lemma hole_perm l h c x lo n : (lo <= h < lo + n)%nat -> (lo <= c < lo + n)%nat -> (lo + n <= List.length l)%nat -> h <> c ->
  Permutation (cells (upd (upd l h (at_ l c)) c x) lo n) (cells (upd l h x) lo n).
Proof.
  intros Hh Hc L N. transitivity (map (at_ (upd l h x)) (map (swap h c) (seq lo n))); [|apply Permutation_map; now apply swap_perm].
  unfold cells. rewrite map_map. apply Permutation_refl'. apply map_ext. intro i. unfold swap. rewrite !at_upd by (rewrite ?upd_length; lia).
  destruct (Nat.eqb_spec c i) as [<- |Nc].
  - rewrite Nat.eqb_refl. destruct (Nat.eqb_spec c h); [lia|]. now rewrite Nat.eqb_refl.
  - destruct (Nat.eqb_spec h i) as [<- |Nh].
    + rewrite Nat.eqb_refl. destruct (Nat.eqb_spec h c); [lia|reflexivity].
    + destruct (Nat.eqb_spec i h); [lia|]. destruct (Nat.eqb_spec i c); [lia|]. destruct (Nat.eqb_spec h i); [lia|reflexivity].
Qed.

Definition v (l : list integral) (i : nat) : R := var (at_ l i).
Definition heap (l : list integral) (n : nat) : Prop := forall i, (2 <= i <= n)%nat -> v l i <= v l (i / 2).
Lemma heap_top l n : heap l n -> forall i, (1 <= i <= n)%nat -> v l i <= v l 1.
Proof.
  intros H i. induction i as [i IH] using (well_founded_induction lt_wf). intro Hi. destruct (Nat.eq_dec i 1) as [-> |N]; [lra|].
  pose proof (H i ltac:(lia)). assert (D : (1 <= i / 2 < i)%nat) by (split; [apply Nat.div_le_lower_bound; lia|apply Nat.div_lt; lia]). pose proof (IH (i / 2)%nat ltac:(lia) ltac:(lia)). lra.
Qed.
Lemma v_upd l i j x : (i < List.length l)%nat -> v (upd l i x) j = if Nat.eqb i j then var x else v l j.
Proof. intro H. unfold v. rewrite at_upd by exact H. now destruct (Nat.eqb i j). Qed.
Lemma child i h : (1 <= h)%nat -> (i / 2 = h)%nat <-> (i = 2 * h \/ i = 2 * h + 1)%nat.
Proof.
  intros. split.
  - intro E. pose proof (Nat.div_mod i 2 ltac:(lia)). pose proof (Nat.mod_upper_bound i 2 ltac:(lia)). lia.
  - intros [-> | ->]; [rewrite Nat.mul_comm; now apply Nat.div_mul|]. rewrite Nat.add_comm, (Nat.mul_comm 2). rewrite Nat.div_add by lia. reflexivity.
Qed.

Section Sift.
  Variable tmp : integral.
  Notation e := (var tmp).
  Variable N : nat.
  Lemma sift_down_ok fuel l h : (N - h < fuel)%nat -> (1 <= h <= N)%nat -> (N < List.length l)%nat ->
    (forall i, (2 <= i <= N)%nat -> i <> h -> (i / 2 <> h)%nat -> v l i <= v l (i / 2)) ->
    (forall i, (2 <= i <= N)%nat -> (2 <= h)%nat -> (i / 2 = h)%nat -> v l i <= v l (h / 2)) ->
    ((2 <= h)%nat -> e <= v l (h / 2)) ->
    exists l' h', sift_down fuel l N h e = Ok (l', h') /\ (1 <= h' <= N)%nat /\ List.length l' = List.length l /\ heap (upd l' h' tmp) N /\
      Permutation (cells (upd l' h' tmp) 1 N) (cells (upd l h tmp) 1 N) /\ forall i, (i < 1 \/ N < i)%nat -> at_ l' i = at_ l i.
  Proof.
    revert l h. induction fuel as [|fuel IH]; intros l h Hf Hh HL H1 H2 H3; [lia|]. cbn [sift_down].
    assert (Stop : (forall i, (2 <= i <= N)%nat -> (i / 2 = h)%nat -> v l i <= e) -> heap (upd l h tmp) N).
    { intros S i Hi. rewrite !v_upd by lia. destruct (Nat.eqb_spec h i) as [-> |Ni].
      - destruct (Nat.eqb_spec i (i / 2)) as [E|_]; [pose proof (Nat.div_lt i 2); lia|]. apply H3. lia.
      - destruct (Nat.eqb_spec h (i / 2)) as [E|Ne]; [apply S; [exact Hi|now symmetry]|]. apply H1; [exact Hi|congruence|congruence]. }
    destruct (Nat.ltb_spec N (2 * h)) as [L|L].
    - exists l, h. split; [reflexivity|]. split; [lia|]. split; [reflexivity|]. split; [|split; [reflexivity|reflexivity]]. apply Stop. intros i Hi E. apply child in E; lia.
    - set (pick := if (2 * h <? N)%nat then _ else _).
      assert (P : exists c, pick = Ok c /\ (c / 2 = h)%nat /\ (c <= N)%nat /\ forall i, (2 <= i <= N)%nat -> (i / 2 = h)%nat -> v l i <= v l c).
      { unfold pick. destruct (Nat.ltb_spec (2 * h) N) as [L'|L'].
        - rewrite !get_ok by lia. cbn [bind]. fold (v l (2 * h)) (v l (S (2 * h))). destruct (Rlt_dec (v l (2 * h)) (v l (S (2 * h)))) as [C|C]; eexists; (split; [reflexivity|]); (split; [apply child; lia|]); (split; [lia|]); intros i Hi E; apply child in E; try lia; destruct E as [-> | ->]; try (replace (2 * h + 1)%nat with (S (2 * h)) by lia); lra.
        - exists (2 * h)%nat. split; [reflexivity|]. split; [apply child; lia|]. split; [lia|]. intros i Hi E. apply child in E; [|lia]. assert (i = 2 * h)%nat as -> by lia. lra. }
      destruct P as (c & -> & Ec & Lc & Max). cbn [bind]. assert (Hc : (c = 2 * h \/ c = 2 * h + 1)%nat) by (apply child; lia). rewrite get_ok by lia. cbn [bind]. fold (v l c).
      destruct (Rle_dec (v l c) e) as [C|C].
      + exists l, h. split; [reflexivity|]. split; [lia|]. split; [reflexivity|]. split; [|split; [reflexivity|reflexivity]]. apply Stop. intros i Hi E. specialize (Max i Hi E). lra.
      + apply Rnot_le_lt in C. rewrite put_ok by lia. cbn [bind]. assert (V : forall j, v (upd l h (at_ l c)) j = if Nat.eqb h j then v l c else v l j) by (intro j; rewrite v_upd by lia; reflexivity).
        destruct (IH (upd l h (at_ l c)) c) as (l' & h' & E & Hh' & Ll & Hp & Pm & Out).
        * lia.
        * lia.
        * rewrite upd_length. exact HL.
        * intros i Hi Nc Nc'. rewrite !V. destruct (Nat.eqb_spec h i) as [-> |Ni].
          -- destruct (Nat.eqb_spec i (i / 2)) as [E|_]; [pose proof (Nat.div_lt i 2); lia|]. apply H2; [lia|lia|exact Ec].
          -- destruct (Nat.eqb_spec h (i / 2)) as [E|Ne]; [apply Max; [exact Hi|now symmetry]|]. apply H1; [exact Hi|congruence|congruence].
        * intros i Hi _ E. rewrite !V. rewrite Ec, Nat.eqb_refl. assert (i = 2 * c \/ i = 2 * c + 1)%nat by (apply child; lia). destruct (Nat.eqb_spec h i); [lia|]. rewrite <- E. apply H1; [exact Hi|lia|lia].
        * intros _. rewrite V, Ec, Nat.eqb_refl. lra.
        * exists l', h'. split; [exact E|]. split; [exact Hh'|]. rewrite upd_length in Ll. split; [exact Ll|]. split; [exact Hp|]. split.
          -- rewrite Pm. apply hole_perm; lia.
          -- intros i Hi. rewrite Out by exact Hi. apply at_upd_neq. lia.
  Qed.
  Lemma sift_up_ok fuel l h : (h < fuel)%nat -> (1 <= h <= N)%nat -> (N < List.length l)%nat ->
    (forall i, (2 <= i <= N)%nat -> i <> h -> (i / 2 <> h)%nat -> v l i <= v l (i / 2)) ->
    (forall i, (2 <= i <= N)%nat -> (i / 2 = h)%nat -> v l i <= e /\ ((2 <= h)%nat -> v l i <= v l (h / 2))) ->
    exists l' h', sift_up fuel l h e = Ok (l', h') /\ (1 <= h' <= N)%nat /\ List.length l' = List.length l /\ heap (upd l' h' tmp) N /\
      Permutation (cells (upd l' h' tmp) 1 N) (cells (upd l h tmp) 1 N) /\ forall i, (i < 1 \/ N < i)%nat -> at_ l' i = at_ l i.
  Proof.
    revert l h. induction fuel as [|fuel IH]; intros l h Hf Hh HL H1 H2; [lia|]. cbn [sift_up].
    assert (Stop : ((2 <= h)%nat -> e <= v l (h / 2)) -> heap (upd l h tmp) N).
    { intros S i Hi. rewrite !v_upd by lia. destruct (Nat.eqb_spec h i) as [-> |Ni].
      - destruct (Nat.eqb_spec i (i / 2)) as [E|_]; [pose proof (Nat.div_lt i 2); lia|]. apply S. lia.
      - destruct (Nat.eqb_spec h (i / 2)) as [E|Ne]; [apply H2; [exact Hi|now symmetry]|]. apply H1; [exact Hi|congruence|congruence]. }
    assert (D : (2 <= h)%nat -> (1 <= h / 2 < h)%nat) by (intro; split; [apply Nat.div_le_lower_bound; lia|apply Nat.div_lt; lia]).
    destruct (Nat.ltb_spec (h / 2) 1) as [L|L].
    - exists l, h. split; [reflexivity|]. split; [lia|]. split; [reflexivity|]. split; [|split; [reflexivity|reflexivity]]. apply Stop. lia.
    - assert (Hh2 : (2 <= h)%nat) by (destruct (le_lt_dec 2 h); [assumption|exfalso; assert (h = 1)%nat as -> by lia; cbn in L; lia]). specialize (D Hh2). rewrite get_ok by lia. cbn [bind]. fold (v l (h / 2)).
      destruct (Rlt_dec (v l (h / 2)) e) as [C|C].
      + rewrite put_ok by lia. cbn [bind]. set (p := (h / 2)%nat) in *. assert (V : forall j, v (upd l h (at_ l p)) j = if Nat.eqb h j then v l p else v l j) by (intro j; rewrite v_upd by lia; reflexivity).
        assert (Pp : (2 <= p)%nat -> v l p <= v l (p / 2)) by (intro; apply H1; [lia|lia|pose proof (Nat.div_lt p 2); lia]).
        destruct (IH (upd l h (at_ l p)) p) as (l' & h' & E & Hh' & Ll & Hp & Pm & Out).
        * lia.
        * lia.
        * rewrite upd_length. exact HL.
        * intros i Hi Np Np'. rewrite !V. destruct (Nat.eqb_spec h i) as [-> |Ni]; [exfalso; now apply Np'|].
          destruct (Nat.eqb_spec h (i / 2)) as [E|Ne]; [apply H2; [exact Hi|now symmetry|exact Hh2]|]. apply H1; [exact Hi|congruence|congruence].
        * intros i Hi E. rewrite !V. assert (S : i <> h -> v l i <= v l p) by (intro Ni; rewrite <- E; apply H1; [exact Hi|exact Ni|lia]).
          destruct (Nat.eqb_spec h (p / 2)) as [E'|_]; [pose proof (Nat.div_le_upper_bound p 2 p); lia|]. destruct (Nat.eqb_spec h i) as [<- |Ni].
          -- split; [lra|]. intro. now apply Pp.
          -- specialize (S ltac:(congruence)). split; [lra|]. intro Q. specialize (Pp Q). lra.
        * exists l', h'. split; [exact E|]. split; [exact Hh'|]. rewrite upd_length in Ll. split; [exact Ll|]. split; [exact Hp|]. split.
          -- rewrite Pm. apply hole_perm; lia.
          -- intros i Hi. rewrite Out by exact Hi. apply at_upd_neq. lia.
      + exists l, h. split; [reflexivity|]. split; [lia|]. split; [reflexivity|]. split; [|split; [reflexivity|reflexivity]]. apply Stop. intro. lra.
  Qed.
End Sift.
