From Coq Require Import Reals Permutation Sorted Lia Bool.
From Coquelicot Require Import Complex.
From Verif.Common Require Import Prelude.
From Verif.Symmetrise Require Import Model Spec.
Local Open Scope nat_scope.

(** ** All permutations *)
Lemma remove_perm x l : NoDup l -> In x l -> Permutation l (x :: remove Nat.eq_dec x l).
Proof.
  induction 1 as [|y l Ny Nd IH]; intros [].
  - subst y. cbn [remove]. destruct (Nat.eq_dec x x); [|congruence]. rewrite notin_remove by assumption. reflexivity.
  - cbn [remove]. destruct (Nat.eq_dec x y) as [->|]; [contradiction|]. etransitivity; [apply perm_skip, (IH H)|apply perm_swap].
Qed.
Lemma remove_nodup x l : NoDup l -> NoDup (remove Nat.eq_dec x l).
Proof.
  induction 1 as [|y l Ny Nd IH]; [constructor|]. cbn [remove]. destruct (Nat.eq_dec x y); [exact IH|]. constructor; [|exact IH].
  intro I. apply in_remove in I as [I _]. contradiction.
Qed.
Lemma remove_length x l n : NoDup l -> In x l -> List.length l = S n -> List.length (remove Nat.eq_dec x l) = n.
Proof. intros N I L. apply (remove_perm x l N), Permutation_length in I. cbn in I. lia. Qed.

Lemma perms_in n : forall l o, NoDup l -> List.length l = n -> (In o (perms n l) <-> Permutation o l).
Proof.
  induction n as [|n IH]; intros l o Nd L.
  - destruct l; [|discriminate]. cbn. split; [intros [<- | []]; constructor|]. intro P. symmetry in P. apply Permutation_nil in P. now left.
  - cbn [perms]. rewrite in_flat_map. split.
    + intros (x & Ix & I). apply in_map_iff in I as (t & <- & It). apply IH in It; [|now apply remove_nodup|now apply remove_length].
      symmetry. etransitivity; [apply (remove_perm x l Nd Ix)|]. apply perm_skip. now symmetry.
    + intro P. destruct o as [|x t]; [apply Permutation_length in P; cbn in P; lia|].
      assert (Ix : In x l) by (apply (Permutation_in _ P); now left). exists x. split; [exact Ix|]. apply in_map_iff. exists t. split; [reflexivity|].
      apply IH; [now apply remove_nodup|now apply remove_length|]. apply (Permutation_cons_inv (a := x)). etransitivity; [exact P|apply (remove_perm x l Nd Ix)].
Qed.

Lemma sorted_app {A} (R : A -> A -> Prop) l k : StronglySorted R l -> StronglySorted R k -> (forall a b, In a l -> In b k -> R a b) -> StronglySorted R (l ++ k).
Proof.
  intros Hl Hk H. induction Hl as [|a l Hl IH Fa]; [exact Hk|]. cbn [app]. constructor.
  - apply IH. intros; apply H; [now right|assumption].
  - apply Forall_app. split; [exact Fa|]. rewrite Forall_forall. intros b Ib. apply H; [now left|exact Ib].
Qed.
Lemma sorted_map_cons x l : StronglySorted before l -> StronglySorted before (map (cons x) l).
Proof.
  induction 1 as [|a l _ IH F]; cbn [map]; constructor; [exact IH|]. rewrite Forall_forall in *. intros b I. apply in_map_iff in I as (c & <- & Ic). apply Before_tl. auto.
Qed.
Lemma remove_sorted x l : StronglySorted lt l -> StronglySorted lt (remove Nat.eq_dec x l).
Proof.
  induction 1 as [|y l _ IH F]; [constructor|]. cbn [remove]. destruct (Nat.eq_dec x y); [exact IH|]. constructor; [exact IH|].
  rewrite Forall_forall in *. intros b I. apply in_remove in I as [I _]. auto.
Qed.
Lemma perms_sorted n : forall l, StronglySorted lt l -> StronglySorted before (perms n l).
Proof.
  induction n as [|n IH]; intros l Hs; [cbn; repeat constructor|]. cbn [perms].
  assert (Q : forall k, StronglySorted lt k -> StronglySorted before (flat_map (fun x => map (cons x) (perms n (remove Nat.eq_dec x l))) k)).
  { induction 1 as [|x k _ IHk F]; [constructor|]. cbn [flat_map]. apply sorted_app; [apply sorted_map_cons, IH, remove_sorted, Hs|exact IHk|].
    intros a b Ia Ib. apply in_map_iff in Ia as (a' & <- & _). apply in_flat_map in Ib as (y & Iy & Ib). apply in_map_iff in Ib as (b' & <- & _).
    apply Before_hd. rewrite Forall_forall in F. auto. }
  now apply Q.
Qed.
Lemma before_irrefl a : ~ before a a.
Proof. induction a as [|x a IH]; intro H; inversion H; subst; [lia|auto]. Qed.
Lemma sorted_nodup {A} (R : A -> A -> Prop) l : (forall a, ~ R a a) -> StronglySorted R l -> NoDup l.
Proof.
  intros Ir. induction 1 as [|a l _ IH F]; constructor; [|exact IH]. intro I. rewrite Forall_forall in F. exact (Ir a (F a I)).
Qed.
Lemma sorted_filter {A} (R : A -> A -> Prop) f l : StronglySorted R l -> StronglySorted R (filter f l).
Proof.
  induction 1 as [|a l _ IH F]; [constructor|]. cbn [filter]. destruct (f a); [|exact IH]. constructor; [exact IH|].
  rewrite Forall_forall in *. intros b I. apply filter_In in I as [I _]. auto.
Qed.
Lemma seq_sorted n : forall s, StronglySorted lt (seq s n).
Proof. induction n as [|n IH]; intro s; [constructor|]. cbn [seq]. constructor; [apply IH|]. rewrite Forall_forall. intros b I. apply in_seq in I. lia. Qed.
Lemma perms_head n : forall l, NoDup l -> List.length l = n -> exists r, perms n l = l :: r.
Proof.
  induction n as [|n IH]; intros l Nd L; [destruct l; [now exists []|discriminate]|]. destruct l as [|x t]; [discriminate|]. inversion Nd as [|? ? Nx Nt]; subst.
  cbn [perms flat_map remove]. destruct (Nat.eq_dec x x); [|congruence]. rewrite notin_remove by assumption. destruct (IH t Nt) as [r ->]; [cbn in L; lia|]. cbn [map app]. eauto.
Qed.

(** ** The particles in the order of the event type *)
Lemma insert_perm x l : Permutation (insert x l) (x :: l).
Proof. induction l as [|y r IH]; [reflexivity|]. cbn [insert]. destruct (orig y <? orig x); [|reflexivity]. etransitivity; [apply perm_skip, IH|apply perm_swap]. Qed.
Lemma fsp_perm ls : Permutation (getFinalStateParticles ls) ls.
Proof. induction ls as [|x ls IH]; [reflexivity|]. cbn. etransitivity; [apply insert_perm|now apply perm_skip]. Qed.
Lemma insert_sorted x l : StronglySorted (fun a b => orig a <= orig b) l -> StronglySorted (fun a b => orig a <= orig b) (insert x l).
Proof.
  induction 1 as [|y r Hr IH F]; [cbn; repeat constructor|]. cbn [insert]. destruct (Nat.ltb_spec (orig y) (orig x)) as [Hlt|Hle].
  - constructor; [exact IH|]. rewrite Forall_forall in *. intros b I. apply (Permutation_in _ (insert_perm x r)) in I. destruct I as [<- | I]; [lia|auto].
  - constructor; [now constructor|]. constructor; [exact Hle|]. rewrite Forall_forall in *. intros b I. specialize (F b I). lia.
Qed.
Lemma fsp_sorted ls : StronglySorted (fun a b => orig a <= orig b) (getFinalStateParticles ls).
Proof. induction ls as [|x ls IH]; [constructor|]. cbn. now apply insert_sorted. Qed.
Lemma sorted_unique : forall l k, StronglySorted le l -> StronglySorted le k -> Permutation l k -> l = k.
Proof.
  induction l as [|a l IH]; intros k Hl Hk P; [apply Permutation_nil in P; now subst|]. destruct k as [|b k]; [symmetry in P; now apply Permutation_nil in P|].
  inversion Hl as [|? ? Hl' Fa]; subst. inversion Hk as [|? ? Hk' Fb]; subst. rewrite Forall_forall in Fa, Fb.
  assert (a = b). { assert (I : In a (b :: k)) by (apply (Permutation_in _ P); now left). assert (J : In b (a :: l)) by (apply (Permutation_in _ (Permutation_sym P)); now left).
    destruct I as [|I]; [congruence|]. destruct J as [|J]; [congruence|]. specialize (Fa b J). specialize (Fb a I). lia. }
  subst b. f_equal. apply IH; try assumption. now apply (Permutation_cons_inv (a := a)).
Qed.
Lemma sorted_map_orig l : StronglySorted (fun a b => orig a <= orig b) l -> StronglySorted le (map orig l).
Proof. induction 1 as [|a l _ IH F]; cbn [map]; constructor; [exact IH|]. rewrite Forall_forall in *. intros b I. apply in_map_iff in I as (c & <- & Ic). auto. Qed.
Lemma seq_sorted_le n s : StronglySorted le (seq s n).
Proof. generalize (seq_sorted n s). induction 1 as [|a l _ IH F]; constructor; [exact IH|]. eapply Forall_impl; [|exact F]. intros; lia. Qed.

Section Placed.
  Variables (types : list str) (ls : list leaf).
  Hypothesis Hp : placed types ls.
  Let n := List.length types.

  Lemma fsp_origs : map orig (getFinalStateParticles ls) = seq 0 n.
  Proof.
    apply sorted_unique; [apply sorted_map_orig, fsp_sorted|apply seq_sorted_le|]. etransitivity; [apply Permutation_map, fsp_perm|exact (proj1 Hp)].
  Qed.
  Lemma fsp_names : map lname (getFinalStateParticles ls) = types.
  Proof.
    assert (L : List.length (getFinalStateParticles ls) = n) by (rewrite <- (map_length orig), fsp_origs; apply seq_length).
    apply (nth_ext _ _ [] []); [now rewrite map_length|]. intros k Hk. rewrite map_length in Hk.
    set (d := Leaf [] 0 0 0). change (@nil ascii) with (lname d) at 1. rewrite map_nth.
    assert (O : orig (nth k (getFinalStateParticles ls) d) = k) by (rewrite <- (map_nth orig), fsp_origs, seq_nth by lia; reflexivity).
    assert (I : In (nth k (getFinalStateParticles ls) d) ls) by (apply (Permutation_in _ (fsp_perm ls)), nth_In, Hk).
    apply (proj2 Hp) in I. rewrite O in I. symmetry. now apply nth_error_nth.
  Qed.
  Lemma count_below k m : forall s, s <= k -> k <= s + m -> List.length (filter (fun j => j <? k) (seq s m)) = k - s.
  Proof.
    induction m as [|m IH]; intros s H1 H2; cbn [seq filter List.length]; [lia|]. destruct (Nat.ltb_spec s k).
    - cbn [List.length]. rewrite IH by lia. lia.
    - assert (s = k) by lia. subst.
      assert (Q : forall l, (forall j, In j l -> k <= j) -> filter (fun j => j <? k) l = []).
      { induction l as [|j l IHl]; intro F; [reflexivity|]. cbn [filter]. destruct (Nat.ltb_spec j k); [specialize (F j (or_introl eq_refl)); lia|]. apply IHl. intros; apply F; now right. }
      rewrite Q; [cbn; lia|]. intros j I. apply in_seq in I. lia.
  Qed.
  Lemma filter_map_length {A B} (f : B -> bool) (g : A -> B) l : List.length (filter (fun a => f (g a)) l) = List.length (filter f (map g l)).
  Proof. induction l as [|a l IH]; [reflexivity|]. cbn [map filter]. destruct (f (g a)); cbn [List.length]; now rewrite IH. Qed.
  Lemma perm_filter {A} (f : A -> bool) l k : Permutation l k -> Permutation (filter f l) (filter f k).
  Proof. induction 1; cbn [filter]; [constructor|destruct (f x); [now apply perm_skip|assumption]|destruct (f x), (f y); try reflexivity; apply perm_swap|etransitivity; eassumption]. Qed.
  Lemma orig_lt l : In l ls -> orig l < n.
  Proof. intro I. apply (proj2 Hp) in I. apply nth_error_Some. unfold n. congruence. Qed.
  Lemma rank_orig l : In l ls -> rank ls l = orig l.
  Proof.
    intro I. unfold rank. rewrite (filter_map_length (fun j => j <? orig l) orig). rewrite (Permutation_length (perm_filter _ _ _ (proj1 Hp))).
    rewrite count_below; [lia|lia|]. apply orig_lt in I. lia.
  Qed.
  Lemma placed_length : List.length ls = n.
  Proof. rewrite <- (map_length orig). rewrite (Permutation_length (proj1 Hp)). apply seq_length. Qed.

  Lemma same_as_spec o : List.length o = n -> (same_as types o = true <-> forall k, k < n -> nth k types [] = nth (nth k o 0) types []).
  Proof.
    intro L. unfold same_as. rewrite forallb_forall, L. split; intros H k Hk.
    - specialize (H k). rewrite in_seq in H. destruct (str_eqb_spec (nth k types []) (nth (nth k o 0) types [])); [assumption|]. discriminate H. lia.
    - apply in_seq in Hk. rewrite <- H by lia. apply str_eqb_refl.
  Qed.
  Lemma orderings_eq : identicalDaughterOrderings ls = filter (same_as types) (perms n (seq 0 n)).
  Proof. unfold identicalDaughterOrderings. rewrite fsp_names. reflexivity. Qed.
  Lemma orderings_in o : In o (identicalDaughterOrderings ls) <-> rearrangement types o.
  Proof.
    rewrite orderings_eq, filter_In, perms_in by (try apply seq_NoDup; apply seq_length). unfold rearrangement. fold n.
    split; intros [P H]; (split; [exact P|]); assert (L : List.length o = n) by (rewrite (Permutation_length P); apply seq_length).
    - rewrite (same_as_spec o L) in H. intros k Hk.
      assert (Hm : nth k o 0 < n) by (assert (I : In (nth k o 0) (seq 0 n)) by (apply (Permutation_in _ P), nth_In; lia); apply in_seq in I; lia).
      rewrite (nth_error_nth' types [] Hm), (nth_error_nth' types [] Hk), <- (H k Hk). reflexivity.
    - apply (same_as_spec o L). intros k Hk. specialize (H k Hk).
      assert (Hm : nth k o 0 < n) by (assert (I : In (nth k o 0) (seq 0 n)) by (apply (Permutation_in _ P), nth_In; lia); apply in_seq in I; lia).
      rewrite (nth_error_nth' types [] Hm), (nth_error_nth' types [] Hk) in H. congruence.
  Qed.
  Lemma orderings_sorted : StronglySorted before (identicalDaughterOrderings ls).
  Proof. rewrite orderings_eq. apply sorted_filter, perms_sorted, seq_sorted. Qed.
  Lemma orderings_nodup : NoDup (identicalDaughterOrderings ls).
  Proof. apply (sorted_nodup before); [apply before_irrefl|apply orderings_sorted]. Qed.
  Lemma orderings_head : exists r, identicalDaughterOrderings ls = seq 0 n :: r.
  Proof.
    rewrite orderings_eq. destruct (perms_head n (seq 0 n)) as [r ->]; [apply seq_NoDup|apply seq_length|]. cbn [filter].
    rewrite (proj2 (same_as_spec (seq 0 n) (seq_length _ _))); [eauto|]. intros k Hk. now rewrite seq_nth.
  Qed.
End Placed.

(** ** Signs *)
From Verif.Utilities Require Import MinSwaps.
Import Utilities.Model.
Definition prodZ (l : list Z) : Z := fold_right Z.mul 1%Z l.
Lemma prodZ_app l k : prodZ (l ++ k) = (prodZ l * prodZ k)%Z.
Proof. induction l as [|a l IH]; cbn [app prodZ fold_right]; [now rewrite Z.mul_1_l|]. fold (prodZ (l ++ k)) (prodZ l). rewrite IH. ring. Qed.
Lemma prodZ_perm l k : Permutation l k -> prodZ l = prodZ k.
Proof. induction 1; cbn [prodZ fold_right] in *; [reflexivity|now f_equal|ring|congruence]. Qed.
Lemma prodZ_concat {A} (f : A -> Z) L : prodZ (map f (List.concat L)) = prodZ (map (fun c => prodZ (map f c)) L).
Proof. induction L as [|c L IH]; [reflexivity|]. cbn [List.concat map]. rewrite map_app, prodZ_app, IH. reflexivity. Qed.
Lemma prodZ_filter {A} (f : A -> Z) p l : (forall a, In a l -> p a = false -> f a = 1%Z) -> prodZ (map f (filter p l)) = prodZ (map f l).
Proof.
  induction l as [|a l IH]; intro H; [reflexivity|]. cbn [filter map]. destruct (p a) eqn:E.
  - cbn [map prodZ fold_right]. f_equal. apply IH. intros; apply H; [now right|assumption].
  - cbn [prodZ fold_right]. fold (prodZ (map f l)). rewrite (H a (or_introl eq_refl) E), Z.mul_1_l. apply IH. intros; apply H; [now right|assumption].
Qed.
Lemma prodZ_flip (f : nat -> Z) i l : NoDup l -> In i l -> prodZ (map (fun k => if Nat.eqb k i then Z.opp (f k) else f k) l) = (- prodZ (map f l))%Z.
Proof.
  induction 1 as [|a l Na _ IH]; intros []; cbn [map prodZ fold_right].
  - subst a. rewrite Nat.eqb_refl. rewrite (map_ext_in _ f); [ring|]. intros k Ik. destruct (Nat.eqb_spec k i); [subst; contradiction|reflexivity].
  - destruct (Nat.eqb_spec a i); [subst; contradiction|]. change (fold_right Z.mul 1%Z ?m) with (prodZ m). rewrite IH by assumption. ring.
Qed.

Section Sign.
  Variables (fermion : str -> bool) (types : list str).
  Hypothesis few : few_fermions fermion types.
  Let n := List.length types.
  Definition fermi (k : nat) : bool := match nth_error types k with Some x => fermion x | None => false end.
  Definition par : list Z := map (fun x => if fermion x then (-1)%Z else 1%Z) types.
  Definition ex (o : list nat) (k : nat) : Z := if fermi k && (k <? nth k o 0) then (-1)%Z else 1%Z.
  Definition sgn (o : list nat) : Z := prodZ (map (ex o) (seq 0 n)).

  Lemma rearr_lt o k : rearrangement types o -> k < n -> nth k o 0 < n.
  Proof.
    intros [P _] Hk. assert (L : List.length o = n) by (rewrite (Permutation_length P); apply seq_length).
    assert (I : In (nth k o 0) (seq 0 n)) by (apply (Permutation_in _ P), nth_In; lia). apply in_seq in I. lia.
  Qed.
  Lemma rearr_inj o i j : rearrangement types o -> i < n -> j < n -> nth i o 0 = nth j o 0 -> i = j.
  Proof.
    intros [P _] Hi Hj E. assert (L : List.length o = n) by (rewrite (Permutation_length P); apply seq_length).
    apply (proj1 (NoDup_nth o 0)); try lia. apply (Permutation_NoDup (Permutation_sym P)), seq_NoDup.
  Qed.
  (** In a pair of identical fermions the two are exchanged, or not. *)
  Lemma rearr_two o k : rearrangement types o -> k < n -> fermi k = true -> nth (nth k o 0) o 0 = k \/ nth k o 0 = k.
  Proof.
    intros H Hk F. pose proof (rearr_lt o k H Hk) as H1. pose proof (rearr_lt o _ H H1) as H2. destruct H as [P H].
    pose proof (H k Hk) as E1. pose proof (H _ H1) as E2. rewrite E1 in E2. unfold fermi in F. destruct (nth_error types k) as [x|] eqn:E; [|discriminate].
    destruct (few k (nth k o 0) (nth (nth k o 0) o 0) x E E1 E2 F) as [A|[A|A]]; [now right| |now left].
    right. symmetry. apply (rearr_inj o); [now split|exact Hk|exact H1|exact A].
  Qed.
  Lemma par_nth k : k < n -> nth k par 1%Z = if fermi k then (-1)%Z else 1%Z.
  Proof.
    intro Hk. unfold fermi. rewrite (nth_error_nth' types [] Hk). unfold par. rewrite (nth_indep _ 1%Z (if fermion [] then (-1)%Z else 1%Z)) by (now rewrite map_length).
    now rewrite (map_nth (fun x => if fermion x then (-1)%Z else 1%Z)).
  Qed.
  Lemma fermi_same o k : rearrangement types o -> k < n -> fermi (nth k o 0) = fermi k.
  Proof. intros [_ H] Hk. unfold fermi. now rewrite H. Qed.

  Lemma minSwaps_sgn o : rearrangement types o -> exists m, minSwaps o par = Ok (m, sgn o).
  Proof.
    intro Hr. pose proof Hr as [P _]. assert (L : List.length o = n) by (rewrite (Permutation_length P); apply seq_length).
    assert (P' : Permutation o (seq 0 (List.length o))) by now rewrite L.
    destruct (minSwaps_structure o par P') as (Cy & E & [Fc Nd] & Cov); [unfold par; rewrite map_length; fold n; lia|].
    exists (total Cy). rewrite E. do 2 f_equal. rewrite L in Cov, Fc.
    assert (Inv : forall k, k < n -> nth k (arrPos o) 0 < n /\ nth (nth k (arrPos o) 0) o 0 = k) by (intros k Hk; rewrite <- L in *; now apply arrPos_inverse).
    (* the moved places are those of the cycles *)
    assert (Mv : forall k, In k (List.concat Cy) -> k < n).
    { intros k I. apply in_concat in I as (c & Ic & I). rewrite Forall_forall in Fc. destruct (Fc c Ic) as (_ & _ & Fx & _). rewrite Forall_forall in Fx. auto. }
    unfold sgn. set (p := fun k => if in_dec Nat.eq_dec k (List.concat Cy) then true else false).
    rewrite <- (prodZ_filter (ex o) p).
    2:{ intros k Ik Hk. apply in_seq in Ik. unfold p in Hk. destruct (in_dec Nat.eq_dec k (List.concat Cy)) as [|N]; [discriminate|]. destruct (Cov k) as [Fx|I]; [lia| |contradiction].
        assert (K : nth k o 0 = k) by (destruct (Inv k) as [_ A]; [lia|]; rewrite Fx in A; exact A). unfold ex. rewrite K, Nat.ltb_irrefl, andb_false_r. reflexivity. }
    rewrite <- (prodZ_perm (map (ex o) (List.concat Cy))).
    2:{ apply Permutation_map, NoDup_Permutation; [exact Nd|apply NoDup_filter, seq_NoDup|]. intro k. rewrite filter_In, in_seq. unfold p. destruct (in_dec Nat.eq_dec k (List.concat Cy)) as [I|N]; [|split; [contradiction|now intros [_ ?]]].
        split; [|tauto]. intros _. split; [|reflexivity]. specialize (Mv k I). lia. }
    rewrite prodZ_concat. unfold parity. change (fold_right Z.mul 1%Z ?m) with (prodZ m). apply (f_equal prodZ). apply map_ext_in. intros c Ic. rewrite Forall_forall in Fc. destruct (Fc c Ic) as (Lc & Nc & Fx & Ch). rewrite Forall_forall in Fx.
    unfold chain in Ch. destruct c as [|a c']; [cbn in Lc; lia|]. cbn [hd] in *. pose proof (Fx a (or_introl eq_refl)) as Ha. rewrite par_nth by exact Ha.
    (* all in a cycle are alike *)
    assert (Alike : forall k, In k (a :: c') -> fermi k = fermi a).
    { cbn [map tl] in Ch. assert (Q : forall c0 b, (forall k, In k (b :: c0) -> k < n) -> map (fun k => nth k (arrPos o) 0) (b :: c0) = c0 ++ (a :: nil) -> forall k, In k (b :: c0) -> fermi k = fermi a).
      { induction c0 as [|d c0 IH]; intros b Hb Hm k Ik.
        - cbn in Hm. injection Hm as Hm. destruct Ik as [<- | []]. rewrite <- Hm. rewrite <- (proj2 (Inv b (Hb b (or_introl eq_refl)))) at 1. apply fermi_same; [exact Hr|]. apply Inv, Hb. now left.
        - cbn [map app] in Hm. injection Hm as Hd Hm. assert (Kd : fermi b = fermi d).
          { rewrite <- Hd. rewrite <- (proj2 (Inv b (Hb b (or_introl eq_refl)))) at 1. apply fermi_same; [exact Hr|]. apply Inv, Hb. now left. }
          assert (R : forall k, In k (d :: c0) -> fermi k = fermi a) by (apply IH; [intros; apply Hb; now right|exact Hm]).
          destruct Ik as [<- | Ik]; [rewrite Kd; apply R; now left|now apply R]. }
      apply (Q c' a); [exact Fx|exact Ch]. }
    destruct (fermi a) eqn:Fa.
    - destruct c' as [|b c']; [cbn in Lc; lia|]. cbn [map tl app] in Ch. injection Ch as E1 Ch. pose proof (Fx b (or_intror (or_introl eq_refl))) as Hb.
      pose proof (Inv a Ha) as [_ A1]. rewrite E1 in A1. (* o b = a *)
      assert (Nab : a <> b) by (clear - Nc; intros ->; inversion Nc as [|? ? N _]; apply N; now left).
      assert (B : nth a o 0 = b). { destruct (rearr_two o b Hr Hb) as [B|B]; [apply Alike; right; now left|now rewrite A1 in B|congruence]. }
      destruct c' as [|d c'].
      + cbn [map prodZ fold_right]. unfold ex. rewrite (Alike a (or_introl eq_refl)), (Alike b (or_intror (or_introl eq_refl))), A1, B. cbn [andb].
        destruct (Nat.ltb_spec a b), (Nat.ltb_spec b a); try lia; reflexivity.
      + exfalso. cbn [map app] in Ch. injection Ch as E2 _. pose proof (Inv b Hb) as [_ A2]. rewrite E2 in A2. pose proof (Fx d (or_intror (or_intror (or_introl eq_refl)))) as Hd.
        assert (Eda : d = a) by (apply (rearr_inj o d a Hr Hd Ha); congruence). rewrite Eda in Nc. clear - Nc. apply NoDup_cons_iff in Nc as [N _]. apply N. right. now left.
    - assert (Q : forall l, (forall k, In k l -> fermi k = false) -> prodZ (map (ex o) l) = 1%Z).
      { induction l as [|k l IH]; intro F; [reflexivity|]. cbn [map prodZ fold_right]. fold (prodZ (map (ex o) l)). rewrite IH by (intros; apply F; now right). unfold ex. rewrite (F k (or_introl eq_refl)). reflexivity. }
      symmetry. now apply Q.
  Qed.

  (** Rearranging after an exchange of two identical particles. *)
  Lemma swap_lt i j k : i < n -> j < n -> k < n -> swap i j k < n.
  Proof. intros. unfold swap. destruct (k =? i), (k =? j); assumption. Qed.
  Lemma swap_swap i j k : swap i j (swap i j k) = k.
  Proof. unfold swap. destruct (Nat.eqb_spec k i) as [->|]; [destruct (Nat.eqb_spec j i), (Nat.eqb_spec j j); congruence|]. destruct (Nat.eqb_spec k j) as [->|]; [now rewrite Nat.eqb_refl|]. destruct (Nat.eqb_spec k i), (Nat.eqb_spec k j); congruence. Qed.
  Lemma swap_name i j k x : nth_error types i = Some x -> nth_error types j = Some x -> nth_error types (swap i j k) = nth_error types k.
  Proof. intros Hi Hj. unfold swap. destruct (Nat.eqb_spec k i) as [->|]; [congruence|]. destruct (Nat.eqb_spec k j) as [->|]; congruence. Qed.
  Lemma rearr_swap i j x o : nth_error types i = Some x -> nth_error types j = Some x -> rearrangement types o -> rearrangement types (map (swap i j) o).
  Proof.
    intros Hi Hj Hr. assert (Li : i < n) by (apply nth_error_Some; congruence). assert (Lj : j < n) by (apply nth_error_Some; congruence). pose proof Hr as [P H].
    assert (L : List.length o = n) by (rewrite (Permutation_length P); apply seq_length). split.
    - fold n. apply NoDup_Permutation_bis; [|rewrite map_length, seq_length; lia|].
      + apply FinFun.Injective_map_NoDup; [intros a b E; rewrite <- (swap_swap i j a), E; apply swap_swap|]. apply (Permutation_NoDup (Permutation_sym P)), seq_NoDup.
      + intros k I. apply in_map_iff in I as (m & <- & Im). apply (Permutation_in _ P) in Im. apply in_seq in Im. apply in_seq. pose proof (swap_lt i j m Li Lj). fold n in Im. lia.
    - intros k Hk. rewrite (nth_indep _ 0 (swap i j 0)) by (rewrite map_length, L; exact Hk). rewrite map_nth, (swap_name i j _ x Hi Hj). now apply H.
  Qed.
  Lemma nth_swap i j o k : rearrangement types o -> k < n -> nth k (map (swap i j) o) 0 = swap i j (nth k o 0).
  Proof. intros [P _] Hk. rewrite (nth_indep _ 0 (swap i j 0)) by (rewrite map_length, (Permutation_length P), seq_length; exact Hk). apply map_nth. Qed.
  Lemma sgn_boson i j x o : nth_error types i = Some x -> nth_error types j = Some x -> fermion x = false -> rearrangement types o -> sgn (map (swap i j) o) = sgn o.
  Proof.
    intros Hi Hj Fx Hr. unfold sgn. f_equal. apply map_ext_in. intros k Ik. apply in_seq in Ik. unfold ex. destruct (fermi k) eqn:Fk; [|reflexivity]. cbn [andb].
    rewrite nth_swap by (try assumption; lia). assert (F : fermi (nth k o 0) = true) by (rewrite fermi_same by (try assumption; lia); exact Fk).
    assert (nth k o 0 <> i) by (intro Q; rewrite Q in F; unfold fermi in F; rewrite Hi in F; congruence). assert (nth k o 0 <> j) by (intro Q; rewrite Q in F; unfold fermi in F; rewrite Hj in F; congruence).
    unfold swap. destruct (Nat.eqb_spec (nth k o 0) i), (Nat.eqb_spec (nth k o 0) j); congruence.
  Qed.
  Lemma sgn_fermion_lt i j x o : i < j -> nth_error types i = Some x -> nth_error types j = Some x -> fermion x = true -> rearrangement types o -> sgn (map (swap i j) o) = (- sgn o)%Z.
  Proof.
    intros Lt Hi Hj Fx Hr. assert (Li : i < n) by (apply nth_error_Some; congruence). assert (Lj : j < n) by (apply nth_error_Some; congruence).
    unfold sgn. rewrite <- (prodZ_flip (ex o) i) by (try apply seq_NoDup; apply in_seq; lia). f_equal. apply map_ext_in. intros k Ik. apply in_seq in Ik. assert (Hk : k < n) by lia. clear Ik.
    unfold ex. rewrite nth_swap by assumption. pose proof Hr as [P H].
    assert (Two : forall m, m < n -> nth_error types m = Some x -> m = i \/ m = j) by (intros m _ Hm; destruct (few i j m x Hi Hj Hm Fx) as [?|[?|?]]; [lia|right; congruence|left; congruence]).
    destruct (Nat.eqb_spec k i) as [->|Ni].
    - assert (Fi : fermi i = true) by (unfold fermi; now rewrite Hi). rewrite Fi. cbn [andb]. destruct (Two (nth i o 0)) as [-> | ->]; [now apply rearr_lt|now rewrite H| |]; unfold swap; rewrite ?Nat.eqb_refl.
      + destruct (Nat.ltb_spec i j), (Nat.ltb_spec i i); try lia; reflexivity.
      + destruct (Nat.eqb_spec j i); [lia|]. destruct (Nat.ltb_spec i i), (Nat.ltb_spec i j); try lia; reflexivity.
    - destruct (Nat.eqb_spec k j) as [->|Nj].
      + destruct (Two (nth j o 0)) as [-> | ->]; [now apply rearr_lt|now rewrite H| |]; unfold swap; rewrite ?Nat.eqb_refl.
        * destruct (Nat.ltb_spec j j), (Nat.ltb_spec j i); try lia; reflexivity.
        * destruct (Nat.eqb_spec j i); [lia|]. destruct (Nat.ltb_spec j j), (Nat.ltb_spec j i); try lia; reflexivity.
      + unfold swap. destruct (Nat.eqb_spec (nth k o 0) i) as [Ek|]; [exfalso|].
        { pose proof (H k Hk) as E. rewrite Ek, Hi in E. destruct (Two k Hk (eq_sym E)); congruence. }
        destruct (Nat.eqb_spec (nth k o 0) j) as [Ek|]; [exfalso|reflexivity]. pose proof (H k Hk) as E. rewrite Ek, Hj in E. destruct (Two k Hk (eq_sym E)); congruence.
  Qed.
  Lemma swap_comm i j k : swap i j k = swap j i k.
  Proof. unfold swap. destruct (Nat.eqb_spec k i), (Nat.eqb_spec k j); congruence. Qed.
  Lemma sgn_fermion i j x o : i <> j -> nth_error types i = Some x -> nth_error types j = Some x -> fermion x = true -> rearrangement types o -> sgn (map (swap i j) o) = (- sgn o)%Z.
  Proof.
    intros N Hi Hj Fx Hr. destruct (Nat.lt_total i j) as [H|[H|H]]; [now apply (sgn_fermion_lt i j x)|contradiction|].
    rewrite (map_ext _ _ (swap_comm i j)). now apply (sgn_fermion_lt j i x).
  Qed.
End Sign.
