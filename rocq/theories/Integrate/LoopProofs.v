(** The loop divides the region with the largest error. *)
From Verif.Common Require Import Prelude.
From Coq Require Import Reals Lra Permutation.
From Verif.Integrate Require Import Model Spec HeapProofs.
Local Open Scope R_scope.

(** ** Halves *)
Lemma add_at_change z j p : add_at z j p = change (fun x => x + p) j z.
Proof. revert j. induction z as [|x z IH]; intros [|j]; cbn; congruence. Qed.
Lemma halve_at_change z j : halve_at z j = change (fun x => x / 2) j z.
Proof. revert j. induction z as [|x z IH]; intros [|j]; cbn; try congruence. f_equal. lra. Qed.
Lemma change_length f j z : List.length (change f j z) = List.length z.
Proof. revert j. induction z as [|x z IH]; intros [|j]; cbn; auto. Qed.
Lemma nth_change f j z : (j < List.length z)%nat -> nth j (change f j z) 0 = f (nth j z 0).
Proof. revert j. induction z as [|x z IH]; intros [|j] H; cbn in *; try lia; [reflexivity|]. apply IH. lia. Qed.
Lemma change_change f g j z : change f j (change g j z) = change (fun x => f (g x)) j z.
Proof. revert j. induction z as [|x z IH]; intros [|j]; cbn; try congruence. Qed.
Lemma change_ext f g j z : (forall x, f x = g x) -> change f j z = change g j z.
Proof. intro H. revert j. induction z as [|x z IH]; intros [|j]; cbn; try congruence. Qed.

Lemma total_perm f l l' : Permutation l l' -> total f l = total f l'.
Proof. unfold total. induction 1; cbn; lra. Qed.
Lemma good_perm val err l l' : Permutation l l' -> good val err l -> good val err l'.
Proof. intro P. unfold good. rewrite (total_perm val l l' P), (total_perm err l l' P). auto. Qed.
Lemma total_nonneg f l : (forall r, In r l -> 0 <= f r) -> 0 <= total f l.
Proof. unfold total. induction l as [|x l IH]; cbn; intro H; [lra|]. pose proof (H x (or_introl eq_refl)). pose proof (IH (fun r I => H r (or_intror I))). lra. Qed.

Section Loop.
  Variable rule : list R -> list R -> res (R * R * nat).
  Variable dim : nat.
  Variable val err : region -> R.
  Variable axis : region -> nat.
  Definition sized (r : region) : Prop := List.length (fst r) = dim /\ List.length (snd r) = dim.
  Hypothesis rule_ok : forall r, sized r -> rule (fst r) (snd r) = Ok (val r, err r, axis r) /\ (axis r < dim)%nat /\ 0 <= err r.
  Hypothesis irl_pos : (0 < irlcls dim)%Z.
  Variable whole : region.

  Definition reg (e : integral) : region := (a e, b e).
  Definition entry (e : integral) : Prop := sized (reg e) /\ value e = val (reg e) /\ var e = err (reg e) /\ index e = axis (reg e).
  Lemma total_value l : Forall entry l -> total val (map reg l) = fold_right Rplus 0 (map value l).
  Proof. unfold total. induction 1 as [|x l E F IH]; cbn; [reflexivity|]. destruct E as (_ & <- & _). cbn in IH. now rewrite IH. Qed.
  Lemma total_var l : Forall entry l -> total err (map reg l) = fold_right Rplus 0 (map var l).
  Proof. unfold total. induction 1 as [|x l E F IH]; cbn; [reflexivity|]. destruct E as (_ & _ & <- & _). cbn in IH. now rewrite IH. Qed.

  (** between the divisions *)
  Definition waiting (s : state) : Prop := exists l, let n := isbrgs s in
    ldv s = false /\ isbrgn s = n /\ (1 <= n < List.length (slots s))%nat /\ (current s < List.length (slots s))%nat /\ (n = 1 \/ current s = n)%nat /\
    sized (reg (at_ (slots s) (current s))) /\ Forall entry (cells (slots s) 1 (n - 1)) /\ heap (slots s) (n - 1) /\
    divided val err axis whole l /\ Permutation l (reg (at_ (slots s) (current s)) :: map reg (cells (slots s) 1 (n - 1))) /\
    result s = total val (map reg (cells (slots s) 1 (n - 1))) /\ abserr s = total err (map reg (cells (slots s) 1 (n - 1))) /\
    ifncls s = ((2 * Z.of_nat n - 2) * irlcls dim)%Z.
  Definition dividing (s : state) : Prop := exists l, let n := isbrgs s in let e := at_ (slots s) 1 in
    ldv s = true /\ isbrgn s = 1%nat /\ current s = 1%nat /\ (1 <= n)%nat /\ (S n < List.length (slots s))%nat /\
    sized (reg e) /\ (idvax0 s < dim)%nat /\ Forall entry (cells (slots s) 2 (n - 1)) /\
    (forall i, (2 <= i <= n)%nat -> (i / 2 <> 1)%nat -> v (slots s) i <= v (slots s) (i / 2)) /\
    divided val err axis whole l /\ Permutation l (reg e :: (add_at (a e) (idvax0 s) (2 * nth (idvax0 s) (b e) 0), b e) :: map reg (cells (slots s) 2 (n - 1))) /\
    result s = total val (map reg (cells (slots s) 2 (n - 1))) /\ abserr s = total err (map reg (cells (slots s) 2 (n - 1))) /\
    ifncls s = ((2 * Z.of_nat n - 1) * irlcls dim)%Z.
  Definition finished (sz : nat) (r : R) : Prop := exists l, divided val err axis whole l /\ r = total val l /\ (List.length l < sz)%nat /\
    (good val err l /\ (1 < List.length l)%nat \/ (sz <= S (List.length l))%nat \/ (maxpts < (2 * Z.of_nat (List.length l) + 1) * irlcls dim)%Z).

  Lemma cells_split l lo n : cells l lo (S n) = at_ l lo :: cells l (S lo) n. Proof. reflexivity. Qed.
  Lemma cells_last l lo n : cells l lo (S n) = cells l lo n ++ [at_ l (lo + n)].
  Proof. unfold cells. rewrite seq_S, map_app. reflexivity. Qed.
  Lemma cells_length l lo n : List.length (cells l lo n) = n. Proof. unfold cells. now rewrite map_length, seq_length. Qed.

  Lemma dividing_step s : dividing s -> exists s', body rule dim s = Ok (Again s') /\ waiting s' /\ isbrgs s' = S (isbrgs s) /\ List.length (slots s') = List.length (slots s).
  Proof.
    intros (l & Hl & Hn & Hc & N1 & N2 & Sz & Ax & En & Hp & Dv & Pm & Rs & Ab & If). set (n := isbrgs s) in *. set (e := at_ (slots s) 1) in *. cbv zeta in *.
    unfold body. fold n. rewrite Hc, get_ok by lia. cbn [bind]. fold e. destruct (rule_ok (reg e) Sz) as (Rl & Al & Ep). cbn [fst snd reg] in Rl. rewrite Rl. cbn [bind]. rewrite Hl, Hn. cbn zeta. set (tmp := Integral _ _ _ (a e) (b e)). change (err (reg e)) with (var tmp).
    assert (Et : entry tmp) by (split; [exact Sz|repeat split]).
    destruct (sift_down_ok tmp n (S (List.length (slots s))) (slots s) 1) as (l1 & h & E & Hh & L1 & Hp1 & Pm1 & Out); try lia.
    { intros i Hi _ Ne. now apply Hp. }
    rewrite E. cbn [bind]. rewrite put_ok by lia. cbn [bind]. rewrite !get_ok by (rewrite upd_length; lia). cbn [bind]. rewrite at_upd_eq by lia. set (l2 := upd l1 h tmp) in *. assert (L2 : List.length l2 = List.length (slots s)) by (unfold l2; rewrite upd_length; exact L1).
    rewrite put_ok by lia. cbn [bind]. set (r2 := add_at _ _ _). set (l3 := upd l2 (S n) _). eexists. split; [reflexivity|].
    assert (L3 : List.length l3 = List.length (slots s)) by (unfold l3; now rewrite upd_length).
    assert (C3 : cells l3 1 n = cells l2 1 n) by (apply cells_ext; intros i Hi; unfold l3; apply at_upd_neq; lia).
    assert (Pc : Permutation (cells l3 1 n) (tmp :: cells (slots s) 2 (n - 1))).
    { rewrite C3, Pm1. replace n with (S (n - 1)) at 1 by lia. rewrite cells_split, at_upd_eq by lia. apply perm_skip. apply Permutation_refl'. apply cells_ext. intros i Hi. apply at_upd_neq. lia. }
    split; [|split; [reflexivity|exact L3]]. exists l. cbn [ldv isbrgn isbrgs slots current result abserr ifncls]. replace (S n - 1)%nat with n by lia.
    assert (A3 : at_ l3 (S n) = set_ab r2 (b tmp) (at_ l2 (S n))) by (apply at_upd_eq; lia). rewrite A3.
    split; [reflexivity|]. split; [reflexivity|]. split; [lia|]. split; [lia|]. split; [now right|]. split; [|split; [|split; [|split; [exact Dv|split; [|split; [|split]]]]]].
    - unfold reg, set_ab, sized. cbn [a b fst snd]. unfold r2. rewrite add_at_change, change_length. exact Sz.
    - apply (Permutation_Forall (Permutation_sym Pc)). now constructor.
    - intros i Hi. unfold v, l3. rewrite !at_upd_neq by (pose proof (Nat.div_le_upper_bound i 2 i); lia). now apply Hp1.
    - rewrite Pm. unfold reg at 4. cbn [a b set_ab]. rewrite (Permutation_map reg Pc). cbn [map]. apply perm_swap.
    - rewrite (total_perm val _ _ (Permutation_map reg Pc)). rewrite Rs. unfold total. cbn [map fold_right]. change (reg tmp) with (reg e). lra.
    - rewrite (total_perm err _ _ (Permutation_map reg Pc)). rewrite Ab. unfold total. cbn [map fold_right]. change (reg tmp) with (reg e). change (var tmp) with (err (reg e)). lra.
    - rewrite If. lia.
  Qed.

  Lemma waiting_step s : waiting s -> exists nx, body rule dim s = Ok nx /\ match nx with
    | Again s' => dividing s' /\ isbrgs s' = isbrgs s /\ List.length (slots s') = List.length (slots s)
    | Done r _ => finished (List.length (slots s)) r end.
  Proof.
    intros (l & Hl & Hn & N1 & Nc & Cu & Sz & En & Hp & Dv & Pm & Rs & Ab & If). set (n := isbrgs s) in *. set (e := at_ (slots s) (current s)) in *. cbv zeta in *.
    unfold body. fold n. rewrite get_ok by lia. cbn [bind]. fold e. destruct (rule_ok (reg e) Sz) as (Rl & Al & Ep). cbn [fst snd reg] in Rl. rewrite Rl. cbn [bind]. rewrite Hl, Hn. cbn zeta. set (tmp := Integral _ _ _ (a e) (b e)). change (err (reg e)) with (var tmp) at 1.
    assert (Et : entry tmp) by (split; [exact Sz|repeat split]).
    destruct (sift_up_ok tmp n (S (List.length (slots s))) (slots s) n) as (l1 & h & E & Hh & L1 & Hp1 & Pm1 & Out); try lia.
    { intros i Hi Ni _. apply Hp. lia. }
    { intros i Hi Ei. apply child in Ei; lia. }
    rewrite E. cbn [bind]. rewrite put_ok by lia. cbn [bind]. set (l2 := upd l1 h tmp) in *. assert (L2 : List.length l2 = List.length (slots s)) by (unfold l2; rewrite upd_length; exact L1).
    assert (Pc : Permutation (cells l2 1 n) (tmp :: cells (slots s) 1 (n - 1))).
    { rewrite Pm1. transitivity (cells (upd (slots s) n tmp) 1 (S (n - 1))); [replace (S (n - 1)) with n by lia; reflexivity|]. rewrite cells_last. replace (1 + (n - 1))%nat with n by lia. rewrite at_upd_eq by lia. rewrite <- Permutation_cons_append. apply perm_skip. apply Permutation_refl'. apply cells_ext. intros i Hi. apply at_upd_neq. lia. }
    assert (E2 : Forall entry (cells l2 1 n)) by (apply (Permutation_Forall (Permutation_sym Pc)); now constructor).
    assert (Pl : Permutation l (map reg (cells l2 1 n))) by (rewrite Pm, (Permutation_map reg Pc); reflexivity).
    assert (Ln : List.length l = n) by (rewrite (Permutation_length Pl), map_length; apply cells_length).
    set (res := result s + val (reg e)). set (abe := abserr s + var tmp).
    assert (Re : res = total val l) by (rewrite (total_perm val _ _ Pm); unfold res; rewrite Rs; unfold total; cbn [map fold_right]; lra).
    assert (Ae : abe = total err l) by (rewrite (total_perm err _ _ Pm); unfold abe; rewrite Ab; unfold total; cbn [map fold_right]; change (var tmp) with (err (reg e)); lra).
    assert (A0 : 0 <= abe). { rewrite Ae, (total_perm err _ _ Pl). apply total_nonneg. intros r Ir. apply in_map_iff in Ir as (x & <- & Ix). rewrite Forall_forall in E2. destruct (E2 x Ix) as (Sx & _). apply (rule_ok _ Sx). }
    change (err (reg e)) with (var tmp). fold abe. 
    assert (Cv : lt (Rabs res) epsabs = false) by (unfold lt, epsabs; destruct (Rlt_dec (Rabs res) 0) as [H|_]; [pose proof (Rabs_pos res); lra|reflexivity]).
    assert (Ca : lt abe epsabs = false) by (unfold lt, epsabs; destruct (Rlt_dec abe 0) as [H|_]; [lra|reflexivity]). rewrite Cv, Ca, andb_false_r, orb_false_r. cbn [orb].
    assert (If' : (ifncls s + irlcls dim = (2 * Z.of_nat n - 1) * irlcls dim)%Z) by (rewrite If; ring). rewrite If'. set (rel := if Req_EM_T (Rabs res) 0 then abe else abe / Rabs res).
    assert (G : lt rel epsrel = true <-> good val err l).
    { unfold lt, good. rewrite <- Re, <- Ae. unfold rel. destruct (Req_EM_T (Rabs res) 0) as [Z|Z], (Req_EM_T res 0) as [Z'|Z'].
      - destruct (Rlt_dec abe epsrel); split; auto; discriminate.
      - exfalso. apply Z'. now apply Rabs_eq_0_bis in Z || (destruct (Req_dec res 0) as [Q|Q]; [exact Q|now apply Rabs_no_R0 in Q]).
      - exfalso. apply Z. rewrite Z'. apply Rabs_R0.
      - destruct (Rlt_dec (abe / Rabs res) epsrel); split; auto; discriminate. }
    assert (M : (minpts dim <? (2 * Z.of_nat n - 1) * irlcls dim)%Z = true <-> (1 < n)%nat) by (rewrite Z.ltb_lt; unfold minpts; nia).
    destruct (lt rel epsrel && (minpts dim <? (2 * Z.of_nat n - 1) * irlcls dim)%Z)%bool eqn:Cond.
    { apply andb_true_iff in Cond as [C1 C2]. eexists. split; [reflexivity|]. exists l. split; [exact Dv|]. split; [exact Re|]. split; [lia|]. left. split; [now apply G|rewrite Ln; now apply M]. }
    assert (NG : ~ (good val err l /\ (1 < List.length l)%nat)) by (intros [G1 G2]; apply G in G1; rewrite Ln in G2; apply M in G2; rewrite G1, G2 in Cond; discriminate).
    unfold divide. destruct ((List.length l2 - 1 <=? n)%nat || (maxpts <? (2 * Z.of_nat n - 1) * irlcls dim + 2 * irlcls dim)%Z)%bool eqn:Full.
    { eexists. split; [reflexivity|]. exists l. split; [exact Dv|]. split; [exact Re|]. split; [lia|]. right. apply orb_true_iff in Full as [F|F]; [left; apply Nat.leb_le in F; lia|right; apply Z.ltb_lt in F; rewrite Ln; nia]. }
    apply orb_false_iff in Full as [F1 F2]. apply Nat.leb_gt in F1. rewrite get_ok by lia. cbn [bind]. set (c := at_ l2 1). rewrite put_ok by lia. cbn [bind]. eexists. split; [reflexivity|]. cbn [isbrgs slots].
    split; [|split; [reflexivity|now rewrite upd_length]]. set (c' := set_ab _ _ c). set (l3 := upd l2 1 c').
    assert (Ic : In c (cells l2 1 n)) by (replace n with (S (n - 1)) by lia; rewrite cells_split; now left). rewrite Forall_forall in E2. destruct (E2 c Ic) as (Sc & Vc & Rc & Xc).
    assert (Xd : (index c < dim)%nat) by (rewrite Xc; now apply rule_ok). assert (Sb : List.length (b c) = dim) by apply Sc.
    assert (C3 : cells l3 2 (n - 1) = cells l2 2 (n - 1)) by (apply cells_ext; intros i Hi; unfold l3; apply at_upd_neq; lia).
    assert (Pr : Permutation l (reg c :: map reg (cells l2 2 (n - 1)))) by (rewrite Pl; replace n with (S (n - 1)) at 1 by lia; rewrite cells_split; reflexivity).
    assert (Top : forall r, In r l -> err r <= err (reg c)).
    { intros r Ir. apply (Permutation_in _ Pl) in Ir. apply in_map_iff in Ir as (x & <- & Ix). destruct (E2 x Ix) as (_ & _ & <- & _). rewrite <- Rc. unfold cells in Ix. apply in_map_iff in Ix as (i & <- & Ii). apply in_seq in Ii. apply (heap_top l2 n Hp1). lia. }
    exists (lower (axis (reg c)) (reg c) :: upper (axis (reg c)) (reg c) :: map reg (cells l2 2 (n - 1))). cbn [ldv isbrgn isbrgs slots current result abserr ifncls idvax0]. fold l3. assert (A3 : at_ l3 1 = c') by (apply at_upd_eq; lia). rewrite A3, C3.
    assert (Lo : reg c' = lower (axis (reg c)) (reg c)).
    { unfold c', set_ab, reg at 1, lower. cbn [a b fst snd reg]. rewrite <- Xc, add_at_change, halve_at_change, nth_change by lia. f_equal. }
    assert (Up : (add_at (a c') (index c) (2 * nth (index c) (b c') 0), b c') = upper (axis (reg c)) (reg c)).
    { unfold c', set_ab, upper. cbn [a b fst snd reg]. rewrite <- Xc, !add_at_change, halve_at_change, change_change, nth_change by lia. f_equal. apply change_ext. intro x. lra. }
    rewrite Lo, Up. split; [reflexivity|]. split; [reflexivity|]. split; [reflexivity|]. split; [lia|]. split; [unfold l3; rewrite upd_length; lia|]. split; [|split; [exact Xd|split; [|split; [|split; [|split; [reflexivity|split; [|split]]]]]]].
    - unfold lower, sized. cbn [fst snd]. rewrite !change_length. exact Sc.
    - apply Forall_forall. intros x Ix. apply E2. replace n with (S (n - 1)) by lia. rewrite cells_split. now right.
    - intros i Hi Ne. unfold v, l3. rewrite !at_upd_neq by lia. now apply Hp1.
    - apply divided_once with l; assumption.
    - rewrite Re, (total_perm val _ _ Pr). unfold total. cbn [map fold_right]. rewrite Vc. lra.
    - rewrite Ae, (total_perm err _ _ Pr). unfold total. cbn [map fold_right]. rewrite Rc. lra.
    - ring.
  Qed.

  Lemma loop_ok fuel : (forall s, waiting s -> (2 * (List.length (slots s) - isbrgs s) + 1 <= fuel)%nat -> exists r, loop fuel rule dim s = Ok r /\ finished (List.length (slots s)) r) /\
    (forall s, dividing s -> (2 * (List.length (slots s) - isbrgs s) <= fuel)%nat -> exists r, loop fuel rule dim s = Ok r /\ finished (List.length (slots s)) r).
  Proof.
    induction fuel as [|fuel [IHw IHd]].
    - split; intros s H L; [lia|]. destruct H as (l & _ & _ & _ & _ & H & _). lia.
    - split; intros s H L; cbn [loop].
      + destruct (waiting_step s H) as (nx & -> & P). cbn [bind]. destruct nx as [s'|r st].
        * destruct P as (D & En & Ls). destruct (IHd s' D) as (r & E & F); [rewrite Ls, En; lia|]. exists r. rewrite <- Ls. now split.
        * exists r. now split.
      + destruct (dividing_step s H) as (s' & -> & W & En & Ls). cbn [bind]. destruct H as (l & _ & _ & _ & _ & H & _). destruct (IHw s' W) as (r & E & F); [rewrite Ls, En; lia|]. exists r. rewrite <- Ls. now split.
  Qed.
End Loop.
