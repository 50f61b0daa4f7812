From Coq Require Import Reals Permutation Sorted Lia Bool.
From Coquelicot Require Import Complex.
From Verif.Common Require Import Prelude.
From Verif.Utilities Require MinSwaps.
From Verif.Symmetrise Require Import Model Spec Proofs.
Local Open Scope nat_scope.

Definition key (l : leaf) := (lname l, orig l, pol l).
Lemma key_placed types ls ls1 : map key ls1 = map key ls -> placed types ls -> placed types ls1.
Proof.
  intros K [P H].
  assert (O : forall {B} (f : leaf -> B) g, (forall l, f l = g (key l)) -> map f ls1 = map f ls).
  { intros B f g E. rewrite !(map_ext f (fun l => g (key l)) E). rewrite <- !(map_map key g). now rewrite K. }
  split; [rewrite (O _ orig (fun k => snd (fst k))) by reflexivity; exact P|].
  intros l I. apply (in_map key) in I. rewrite K in I. apply in_map_iff in I as (m & E & Im). apply H in Im. unfold key in E. congruence.
Qed.
Lemma minSwaps_some types o p : rearrangement types o -> List.length types <= List.length p -> exists m e, Utilities.Model.minSwaps o p = Ok (m, e).
Proof.
  intros [P _] Hl. destruct (MinSwaps.minSwaps_structure o p) as (Cy & E & _); [now rewrite (Permutation_length P), seq_length|rewrite (Permutation_length P), seq_length; exact Hl|eauto].
Qed.

Section Totals.
  Variables (M : Type) (fermion : str -> bool) (propagator : list M -> C) (spin : list (M * Z) -> C) (inco bgSpin0 constant : bool).
  Variables (types : list str).
  Let n := List.length types.
  Definition placing (o : list nat) (ls : list leaf) : list leaf := map (fun l => Leaf (lname l) (orig l) (nth (orig l) o 0) (pol l)) ls.

  Lemma setOrdering_ok o ls : placed types ls -> rearrangement types o -> setOrdering o ls = placing o ls.
  Proof.
    intros Hp Hr. unfold setOrdering, placing. apply map_ext_in. intros l I. rewrite (rank_orig types ls Hp l I).
    assert (L : List.length o = n) by (rewrite (Permutation_length (proj1 Hr)); apply seq_length).
    rewrite (nth_error_nth' o 0) by (rewrite L; now apply (orig_lt types ls Hp)). reflexivity.
  Qed.
  Lemma placing_key o ls : map key (placing o ls) = map key ls.
  Proof. unfold placing. rewrite map_map. apply map_ext. reflexivity. Qed.
  Lemma placing_again o ls ls1 : map key ls1 = map key ls -> placing o ls1 = placing o ls.
  Proof.
    intro K. unfold placing. set (g := fun k : str * nat * Z => Leaf (fst (fst k)) (snd (fst k)) (nth (snd (fst k)) o 0) (snd k)).
    assert (G : forall l, map (fun l => Leaf (lname l) (orig l) (nth (orig l) o 0) (pol l)) l = map g (map key l)) by (intro l; rewrite map_map; apply map_ext; reflexivity).
    rewrite !G. now rewrite K.
  Qed.
  Lemma value_ok o x ls : ls_value M propagator spin bgSpin0 (placing o ls) x = arranged M propagator spin bgSpin0 o x ls.
  Proof. unfold ls_value, arranged, placing. rewrite !map_map. reflexivity. Qed.
  Lemma parities_ok ls : placed types ls -> parities fermion ls = par fermion types.
  Proof. intro Hp. unfold parities, par. rewrite <- (fsp_names types ls Hp), map_map. reflexivity. Qed.

  Variable sign : list nat -> Z.
  Hypothesis Hsign : forall o, rearrangement types o -> inco = true \/ exists m, Utilities.Model.minSwaps o (par fermion types) = Ok (m, sign o).
  Definition contribution (x : nat -> M) (ls : list leaf) (o : list nat) : C :=
    let v := arranged M propagator spin bgSpin0 o x ls in if inco then (Cconj v * v)%C else (RtoC (IZR (sign o)) * v)%C.

  Lemma one_total o x ls tot r noSym : placed types ls -> rearrangement types o ->
    totals M fermion propagator spin noSym inco bgSpin0 (o :: r) x ls tot =
    if noSym then Ok ((tot + contribution x ls o)%C, placing o ls) else totals M fermion propagator spin noSym inco bgSpin0 r x (placing o ls) (tot + contribution x ls o)%C.
  Proof.
    intros Hp Hr. cbn [totals]. rewrite parities_ok by exact Hp. rewrite setOrdering_ok, value_ok by assumption. unfold contribution.
    destruct (minSwaps_some types o (par fermion types) Hr) as (m & e & E); [unfold par; rewrite map_length; lia|]. rewrite E. cbn [bind].
    destruct (Hsign o Hr) as [-> | [m' E']]; [reflexivity|]. rewrite E in E'. injection E' as _ ->. destruct inco; reflexivity.
  Qed.
  Lemma contribution_key x ls ls1 o : map key ls1 = map key ls -> contribution x ls1 o = contribution x ls o.
  Proof. intro K. unfold contribution. rewrite <- !value_ok. now rewrite (placing_again o ls ls1 K). Qed.
  Lemma totals_ok x ls : placed types ls -> forall os tot ls1, map key ls1 = map key ls -> (forall o, In o os -> rearrangement types o) ->
    exists ls2, totals M fermion propagator spin false inco bgSpin0 os x ls1 tot = Ok ((tot + sumC (map (contribution x ls) os))%C, ls2) /\
      map key ls2 = map key ls /\ match rev os with [] => ls2 = ls1 | o :: _ => ls2 = placing o ls end.
  Proof.
    intro Hp. induction os as [|o os IH]; intros tot ls1 K H.
    - exists ls1. cbn. split; [|now split]. f_equal. f_equal. ring.
    - rewrite one_total by (try (apply H; now left); now apply (key_placed types ls)). rewrite (contribution_key x ls ls1 o K).
      destruct (IH (tot + contribution x ls o)%C (placing o ls1)) as (ls2 & E & K2 & R); [rewrite placing_key; exact K|intros; apply H; now right|].
      exists ls2. rewrite E. split; [|split; [exact K2|]].
      + cbn [map sumC fold_right]. fold (sumC (map (contribution x ls) os)). f_equal. f_equal. ring.
      + cbn [rev]. destruct (rev os) as [|o' r]; cbn [app]; [|exact R]. rewrite R. now apply placing_again.
  Qed.

  Definition finish (os : list (list nat)) (total : C) : C :=
    if inco then RtoC (sqrt (Re total / INR (List.length os))%R) else ((if constant then total + Ci * RtoC (1 / 100000)%R else total) / RtoC (sqrt (INR (List.length os))))%C.
  Lemma expression_ok x ls : placed types ls ->
    exists r o, identicalDaughterOrderings ls = r ++ o :: nil /\
    getExpression M fermion propagator spin false inco bgSpin0 constant x ls = Ok (finish (r ++ o :: nil) (sumC (map (contribution x ls) (r ++ o :: nil))), placing o ls).
  Proof.
    intro Hp. destruct (orderings_head types ls Hp) as [r0 E0]. destruct (exists_last (l := identicalDaughterOrderings ls)) as (r & o & E); [rewrite E0; discriminate|].
    exists r, o. split; [exact E|]. unfold getExpression. destruct (totals_ok x ls Hp (identicalDaughterOrderings ls) (RtoC 0) ls eq_refl) as (ls2 & T & _ & R).
    { intros o' I. now apply (orderings_in types ls Hp). }
    rewrite T. cbn [bind]. rewrite E in R |- *. rewrite rev_app_distr in R. cbn in R. subst ls2. unfold finish. rewrite Cplus_0_l. reflexivity.
  Qed.
  Lemma nosym_ok x ls : placed types ls ->
    getExpression M fermion propagator spin true inco bgSpin0 constant x ls = Ok (finish (seq 0 n :: nil) (contribution x ls (seq 0 n)), placing (seq 0 n) ls).
  Proof.
    intro Hp. unfold getExpression. destruct (orderings_head types ls Hp) as [r0 E0]. rewrite E0. fold n. rewrite one_total; [|exact Hp|].
    - cbn [bind]. unfold finish. cbn [List.length INR]. rewrite Cplus_0_l. reflexivity.
    - apply (orderings_in types ls Hp). rewrite E0. now left.
  Qed.

  (** Exchange *)
  Lemma arranged_exchanged i j x o ls : placed types ls -> rearrangement types o ->
    arranged M propagator spin bgSpin0 o (exchanged i j x) ls = arranged M propagator spin bgSpin0 (map (swap i j) o) x ls.
  Proof.
    intros Hp Hr. unfold arranged, exchanged. cbv zeta.
    assert (Q : forall l, In l ls -> x (swap i j (nth (orig l) o 0)) = x (nth (orig l) (map (swap i j) o) 0)) by (intros l I; rewrite (nth_swap types i j o (orig l) Hr (orig_lt types ls Hp l I)); reflexivity).
    f_equal; [f_equal; apply map_ext_in; exact Q|]. destruct bgSpin0; [reflexivity|]. f_equal. apply map_ext_in. intros l I. f_equal. now apply Q.
  Qed.
  Lemma sumC_perm l k : Permutation l k -> sumC l = sumC k.
  Proof. induction 1; cbn [sumC fold_right] in *; [reflexivity|now f_equal|ring|congruence]. Qed.
  Lemma orderings_swap i j x ls : placed types ls -> nth_error types i = Some x -> nth_error types j = Some x ->
    Permutation (map (map (swap i j)) (identicalDaughterOrderings ls)) (identicalDaughterOrderings ls).
  Proof.
    intros Hp Hi Hj. apply NoDup_Permutation_bis.
    - apply FinFun.Injective_map_NoDup; [|apply (orderings_nodup types ls Hp)]. intros a b E. apply (f_equal (map (swap i j))) in E. rewrite !map_map in E.
      rewrite (map_ext _ (fun k => k) (swap_swap i j)), (map_ext (fun k => swap i j (swap i j k)) (fun k => k) (swap_swap i j) b), !map_id in E. exact E.
    - now rewrite map_length.
    - intros o I. apply in_map_iff in I as (o' & <- & I). apply (orderings_in types ls Hp). apply (orderings_in types ls Hp) in I. now apply (rearr_swap types i j x).
  Qed.
  Lemma sum_swap i j x y ls f : placed types ls -> nth_error types i = Some y -> nth_error types j = Some y ->
    (forall o, rearrangement types o -> contribution (exchanged i j x) ls o = f (contribution x ls (map (swap i j) o))) -> (forall a b, f (a + b)%C = (f a + f b)%C) -> f (RtoC 0) = RtoC 0 ->
    sumC (map (contribution (exchanged i j x) ls) (identicalDaughterOrderings ls)) = f (sumC (map (contribution x ls) (identicalDaughterOrderings ls))).
  Proof.
    intros Hp Hi Hj H Fa F0. rewrite <- (sumC_perm _ _ (Permutation_map (contribution x ls) (orderings_swap i j y ls Hp Hi Hj))). rewrite map_map.
    assert (Q : forall os, (forall o, In o os -> rearrangement types o) -> sumC (map (contribution (exchanged i j x) ls) os) = f (sumC (map (fun o => contribution x ls (map (swap i j) o)) os))).
    { induction os as [|o os IH]; intro Ho; [symmetry; exact F0|]. cbn [map sumC fold_right]. fold (sumC (map (contribution (exchanged i j x) ls) os)) (sumC (map (fun o0 => contribution x ls (map (swap i j) o0)) os)).
      rewrite Fa, IH by (intros; apply Ho; now right). now rewrite H by (apply Ho; now left). }
    apply Q. intros o I. now apply (orderings_in types ls Hp).
  Qed.
End Totals.

Lemma sgn_exchanges fermion types o : sgn fermion types o = ((-1) ^ Z.of_nat (exchanges fermion types o))%Z.
Proof.
  unfold sgn, exchanges. assert (Q : forall l, (forall k, In k l -> k < List.length types) ->
    prodZ (map (ex fermion types o) l) = Z.pow (-1) (Z.of_nat (List.length (filter (fun k => fermion (nth k types []) && (k <? nth k o 0)) l)))).
  { induction l as [|k l IH]; intro H; [reflexivity|]. cbn [map prodZ fold_right filter]. fold (prodZ (map (ex fermion types o) l)). rewrite IH by (intros; apply H; now right).
    unfold ex, fermi. rewrite (nth_error_nth' types [] (H k (or_introl eq_refl))). destruct (fermion (nth k types []) && (k <? nth k o 0)); [|apply Z.mul_1_l].
    cbn [List.length]. rewrite Nat2Z.inj_succ, Z.pow_succ_r by lia. reflexivity. }
  apply Q. intros k I. apply in_seq in I. lia.
Qed.

(** ** Indices *)
Fixpoint free_from (i : nat) (slots : list (str * bool)) : list nat :=
  match slots with [] => [] | (_, used) :: r => if used then free_from (S i) r else i :: free_from (S i) r end.
Definition unused (x : str) (slots : list (str * bool)) : nat := List.length (filter (fun s => negb (snd s) && str_eqb x (fst s)) slots).
Lemma free_ge i slots k : In k (free_from i slots) -> i <= k.
Proof. revert i. induction slots as [|[y u] r IH]; intros i I; [destruct I|]. cbn in I. destruct u; [apply IH in I; lia|]. destruct I as [<- | I]; [lia|apply IH in I; lia]. Qed.
Lemma find_slot_some x : forall slots i k s', find_slot x i slots = Some (k, s') ->
  i <= k /\ nth_error slots (k - i) = Some (x, false) /\ Permutation (free_from i slots) (k :: free_from i s') /\ map fst s' = map fst slots /\
  (forall j, In j (free_from i s') -> nth_error s' (j - i) = Some (x, false) -> k < j) /\ (forall j y, nth_error s' j = Some (y, false) -> nth_error slots j = Some (y, false)) /\
  forall y, unused y slots = unused y s' + (if str_eqb y x then 1 else 0).
Proof.
  induction slots as [|[y u] r IH]; intros i k s' E; [discriminate|]. cbn [find_slot] in E. destruct (u || negb (str_eqb x y)) eqn:T.
  - destruct (find_slot x (S i) r) as [[k' r']|] eqn:Er; [|discriminate]. injection E as <- <-. destruct (IH _ _ _ Er) as (Le & N & P & Mf & Lt & Bk & Un).
    split; [lia|]. split; [replace (k' - i) with (S (k' - S i)) by lia; exact N|]. split.
    { cbn [free_from]. destruct u; [exact P|]. etransitivity; [apply perm_skip, P|apply perm_swap]. }
    split; [cbn; now rewrite Mf|]. split; [|split].
    + intros j I Hj. cbn [free_from] in I. assert (K : u = false -> j = i -> False). { intros -> ->. rewrite Nat.sub_diag in Hj. cbn in Hj. injection Hj as ->. rewrite str_eqb_refl in T. discriminate. }
      assert (I' : In j (free_from (S i) r')). { destruct u; [exact I|]. destruct I as [<- | I]; [now destruct K|exact I]. }
      apply Lt; [exact I'|]. pose proof (free_ge _ _ _ I'). replace (j - i) with (S (j - S i)) in Hj by lia. exact Hj.
    + intros [|j] z Hj; [exact Hj|]. now apply Bk.
    + intro z. unfold unused in *. cbn [filter snd fst]. destruct (negb u && str_eqb z y); cbn [List.length]; rewrite Un; lia.
  - injection E as <- <-. apply orb_false_iff in T as [-> T]. apply negb_false_iff in T. destruct (str_eqb_spec x y) as [<- |]; [|discriminate].
    split; [lia|]. split; [now rewrite Nat.sub_diag|]. split; [reflexivity|]. split; [reflexivity|]. split; [|split].
    + intros j I _. cbn [free_from] in I. apply free_ge in I. lia.
    + intros [|j] z Hj; [discriminate|exact Hj].
    + intro z. unfold unused. cbn [filter snd fst negb andb]. destruct (str_eqb z x); cbn [List.length]; lia.
Qed.
Lemma find_slot_none x : forall slots i, find_slot x i slots = None -> unused x slots = 0.
Proof.
  induction slots as [|[y u] r IH]; intros i E; [reflexivity|]. cbn [find_slot] in E. destruct (u || negb (str_eqb x y)) eqn:T; [|discriminate].
  destruct (find_slot x (S i) r) as [[? ?]|] eqn:Er; [discriminate|]. unfold unused. cbn [filter snd fst]. replace (negb u && str_eqb x y) with false by (destruct u, (str_eqb x y); try reflexivity; discriminate).
  exact (IH _ Er).
Qed.
Lemma free_nil slots : (forall x, unused x slots = 0) -> forall i, free_from i slots = [].
Proof.
  induction slots as [|[y u] r IH]; intros H i; [reflexivity|]. cbn [free_from]. pose proof (H y) as Hy. unfold unused in Hy. cbn [filter snd fst] in Hy. rewrite str_eqb_refl, andb_true_r in Hy.
  destruct u; [|discriminate]. apply IH. intro x. specialize (H x). unfold unused in *. cbn [filter snd negb andb] in H. exact H.
Qed.
Lemma free_nth i slots k : In k (free_from i slots) -> exists y, nth_error slots (k - i) = Some (y, false).
Proof.
  revert i. induction slots as [|[y u] r IH]; intros i I; [destruct I|]. cbn in I. assert (Q : In k (free_from (S i) r) -> exists z, nth_error ((y, u) :: r) (k - i) = Some (z, false)).
  { intro J. pose proof (free_ge _ _ _ J). destruct (IH _ J) as [z Z]. exists z. replace (k - i) with (S (k - S i)) by lia. exact Z. }
  destruct u; [auto|]. destruct I as [<- | I]; [exists y; now rewrite Nat.sub_diag|auto].
Qed.
Lemma assign_ok : forall names slots, (forall x, count_occ str_dec names x = unused x slots) ->
  let ls := assign names slots in
  map lname ls = names /\ Permutation (map orig ls) (free_from 0 slots) /\
  (forall l, In l ls -> idx l = orig l /\ nth_error slots (orig l) = Some (lname l, false)) /\ StronglySorted (fun a b => lname a = lname b -> orig a < orig b) ls.
Proof.
  induction names as [|x names IH]; intros slots Hc; cbn [assign].
  - cbn. split; [reflexivity|]. split; [rewrite (free_nil slots (fun x => eq_sym (Hc x))); constructor|]. split; [intros l []|constructor].
  - destruct (find_slot x 0 slots) as [[k s']|] eqn:E.
    + destruct (find_slot_some _ _ _ _ _ E) as (_ & N & P & Mf & Lt & Bk & Un). rewrite Nat.sub_0_r in N. destruct (IH s') as (Nm & Pm & In_ & So).
      { intro y. specialize (Hc y). rewrite Un in Hc. cbn [count_occ] in Hc. destruct (str_dec x y) as [<- |]; [rewrite str_eqb_refl in Hc; lia|]. destruct (str_eqb_spec y x); [congruence|lia]. }
      cbn [map]. split; [cbn; now rewrite Nm|]. split; [cbn; etransitivity; [apply perm_skip, Pm|now symmetry]|]. split.
      * intros l [<- | I]; [split; [reflexivity|exact N]|]. destruct (In_ l I) as [A B]. split; [exact A|]. now apply Bk.
      * constructor; [exact So|]. rewrite Forall_forall. intros b Ib En. cbn [orig set_index]. cbn [lname set_index new_leaf] in En. destruct (In_ b Ib) as [_ B]. apply Lt; [|rewrite Nat.sub_0_r, B; congruence].
        apply (Permutation_in _ Pm), in_map, Ib.
    + exfalso. specialize (Hc x). rewrite (find_slot_none _ _ _ E) in Hc. cbn [count_occ] in Hc. destruct (str_dec x x); [lia|congruence].
Qed.
Lemma construct_ok names types : Permutation names types ->
  let ls := construct names types in
  map lname ls = names /\ placed types ls /\ (forall l, In l ls -> idx l = orig l) /\ StronglySorted (fun a b => lname a = lname b -> orig a < orig b) ls.
Proof.
  intros P ls. assert (Fr : forall l i, free_from i (map (fun y => (y, false)) l) = seq i (List.length l)).
  { induction l as [|y l IHl]; intro i; [reflexivity|]. cbn. now rewrite IHl. }
  destruct (assign_ok names (map (fun y => (y, false)) types)) as (Nm & Pm & In_ & So).
  - intro x. rewrite (Permutation_count_occ str_dec) in P. rewrite P. unfold unused. clear. induction types as [|y types IH]; [reflexivity|]. cbn [count_occ map filter snd fst negb andb].
    destruct (str_dec y x) as [->|]; [rewrite str_eqb_refl; cbn [List.length]; now rewrite IH|]. destruct (str_eqb_spec x y); [congruence|exact IH].
  - fold (construct names types) in *. fold ls in Nm, Pm, In_, So. split; [exact Nm|]. split; [|split; [intros l I; now apply In_|exact So]]. split; [now rewrite Fr in Pm|].
    intros l I. destruct (In_ l I) as [_ A]. rewrite nth_error_map in A. destruct (nth_error types (orig l)); cbn in A; [injection A as ->; reflexivity|discriminate].
Qed.
