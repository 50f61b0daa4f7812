(** Proofs about the orderings of particles. *)
From Verif.Events Require Import Model Spec Momenta.
From Coq Require Import Permutation.
Local Open Scope nat_scope.

Lemma nth_error_app_at {A} (l : list A) x r : nth_error (l ++ x :: r) (List.length l) = Some x.
Proof. rewrite nth_error_app2 by lia. now rewrite Nat.sub_diag. Qed.

Lemma set_at_app_at {A} (l : list A) x y r : set_at (List.length l) y (l ++ x :: r) = Some (l ++ y :: r).
Proof. rewrite <- (Nat.add_0_r (List.length l)). rewrite set_at_app_r. reflexivity. Qed.

(** ** [matches] *)
Definition mark (x sgn : Z) (p : Z * bool) : bool := snd p || (x =? sgn * fst p)%Z.

Lemma matches_inner_ok x sgn : forall c2 pre used, List.length used = List.length c2 ->
  matches_inner x sgn c2 (List.length pre) (pre ++ used) = Ok (pre ++ map (mark x sgn) (combine c2 used)).
Proof.
  induction c2 as [|y c2 IH]; intros pre [|b used] L; try discriminate; [reflexivity|]. injection L as L.
  cbn [matches_inner combine map]. unfold mark at 1. cbn [fst snd].
  assert (S1 : forall c, S (List.length pre) = List.length (pre ++ [c])) by (intro; rewrite app_length; cbn; lia).
  destruct (x =? sgn * y)%Z.
  - rewrite set_at_app_at. cbn [of_opt bind]. rewrite (S1 true). change (pre ++ true :: used) with (pre ++ [true] ++ used).
    rewrite app_assoc, IH by assumption. rewrite <- app_assoc. now rewrite orb_true_r.
  - rewrite (S1 b). change (pre ++ b :: used) with (pre ++ [b] ++ used).
    rewrite app_assoc, IH by assumption. rewrite <- app_assoc. now rewrite orb_false_r.
Qed.

Lemma matches_outer_ok sgn c2 : forall c1 used, List.length used = List.length c2 ->
  matches_outer c1 sgn c2 used = Ok (map (fun p => snd p || existsb (fun x => (x =? sgn * fst p)%Z) c1) (combine c2 used)).
Proof.
  induction c1 as [|x c1 IH]; intros used L.
  - cbn [matches_outer existsb]. f_equal. revert used L. induction c2 as [|y c2 IH]; intros [|b used] L; try discriminate; [reflexivity|].
    cbn [combine map fst snd]. rewrite orb_false_r. f_equal. apply IH. now injection L.
  - cbn [matches_outer]. pose proof (matches_inner_ok x sgn c2 [] used L) as M. cbn [app List.length] in M. rewrite M. cbn [bind].
    rewrite IH by (rewrite map_length, combine_length; lia). f_equal. clear - L.
    revert used L. induction c2 as [|y c2 IH]; intros [|b used] L; try discriminate; [reflexivity|].
    cbn [combine map fst snd existsb]. unfold mark at 1. cbn [fst snd]. rewrite orb_assoc. f_equal. apply IH. now injection L.
Qed.

Lemma matches_ok c1 c2 sgn : List.length c1 = List.length c2 ->
  matches c1 c2 sgn = Ok (forallb (fun y => existsb (fun x => (x =? sgn * y)%Z) c1) c2).
Proof.
  intro L. unfold matches. rewrite matches_outer_ok by (rewrite repeat_length; exact L). cbn [bind]. f_equal. rewrite L.
  clear L. induction c2 as [|y c2 IH]; [reflexivity|]. cbn [List.length repeat combine map forallb fst snd orb].
  now rewrite IH.
Qed.

Lemma matches_true c1 c2 sgn : List.length c1 = List.length c2 -> (forall y, In y c2 -> In (sgn * y)%Z c1) -> matches c1 c2 sgn = Ok true.
Proof.
  intros L H. rewrite matches_ok by assumption. f_equal. apply forallb_forall. intros y Hy. apply existsb_exists.
  exists (sgn * y)%Z. split; [now apply H|apply Z.eqb_refl].
Qed.

Lemma matches_false c1 c2 sgn y : List.length c1 = List.length c2 -> In y c2 -> ~ In (sgn * y)%Z c1 -> matches c1 c2 sgn = Ok false.
Proof.
  intros L Hy H. rewrite matches_ok by assumption. f_equal. apply not_true_iff_false. intro F. rewrite forallb_forall in F.
  specialize (F y Hy). apply existsb_exists in F as (x & Hx & E). apply Z.eqb_eq in E. subst x. contradiction.
Qed.

(** ** [claims] *)
Definition free (actual : list Z) (addr : list nat) : list Z := map fst (filter (fun p => snd p =? 999) (combine actual addr)).
Definition taken (addr : list nat) : list nat := filter (fun a => negb (a =? 999)) addr.

Lemma combine_app {A B} (l1 l2 : list A) (r1 r2 : list B) : List.length l1 = List.length r1 ->
  combine (l1 ++ l2) (r1 ++ r2) = combine l1 r1 ++ combine l2 r2.
Proof. revert r1; induction l1 as [|x l1 IH]; intros [|y r1] H; try discriminate; [reflexivity|]. cbn. now rewrite IH by (now injection H). Qed.

Lemma claim_found want i : forall actual addr pre, List.length addr = List.length actual -> In want (free actual addr) ->
  exists a1 a2 b1 b2, actual = a1 ++ want :: a2 /\ addr = b1 ++ 999 :: b2 /\ List.length a1 = List.length b1 /\
    claim want i actual (List.length pre) (pre ++ addr) = Ok (pre ++ b1 ++ i :: b2).
Proof.
  induction actual as [|y actual IH]; intros [|a addr] pre L H; try discriminate; [destruct H|]. injection L as L.
  assert (S1 : S (List.length pre) = List.length (pre ++ [a])) by (rewrite app_length; cbn; lia).
  assert (Deep : In want (free actual addr) ->
    exists a1 a2 b1 b2, y :: actual = a1 ++ want :: a2 /\ a :: addr = b1 ++ 999 :: b2 /\ List.length a1 = List.length b1 /\
    claim want i actual (S (List.length pre)) (pre ++ a :: addr) = Ok (pre ++ b1 ++ i :: b2)).
  { intro H'. destruct (IH addr (pre ++ [a]) L H') as (a1 & a2 & b1 & b2 & E1 & E2 & E3 & E4).
    exists (y :: a1), a2, (a :: b1), b2. rewrite E1, E2 at 1. split; [reflexivity|]. split; [reflexivity|]. split; [cbn; lia|].
    rewrite S1. change (pre ++ a :: addr) with (pre ++ [a] ++ addr). rewrite app_assoc, E4, <- app_assoc. reflexivity. }
  cbn [claim]. unfold free in H. cbn [combine filter map snd] in H.
  destruct (Z.eqb_spec y want) as [->|Hy].
  - rewrite nth_error_app_at. destruct (Nat.eqb_spec a 999) as [->|].
    + exists [], actual, [], addr. repeat split. now rewrite set_at_app_at.
    + exact (Deep H).
  - destruct (a =? 999); [|exact (Deep H)]. destruct H as [H|H]; [contradiction|]. exact (Deep H).
Qed.

Lemma claim_missing want i : forall actual addr pre, List.length addr = List.length actual -> ~ In want (free actual addr) ->
  claim want i actual (List.length pre) (pre ++ addr) = Ok (pre ++ addr).
Proof.
  induction actual as [|y actual IH]; intros [|a addr] pre L H; try discriminate; [reflexivity|]. injection L as L.
  assert (S1 : S (List.length pre) = List.length (pre ++ [a])) by (rewrite app_length; cbn; lia).
  assert (Deep : ~ In want (free actual addr) -> claim want i actual (S (List.length pre)) (pre ++ a :: addr) = Ok (pre ++ a :: addr)).
  { intro H'. rewrite S1. change (pre ++ a :: addr) with (pre ++ [a] ++ addr). rewrite app_assoc. apply IH; assumption. }
  cbn [claim]. unfold free in H. cbn [combine filter map snd] in H.
  destruct (Z.eqb_spec y want) as [->|Hy].
  - rewrite nth_error_app_at. destruct (Nat.eqb_spec a 999) as [->|]; [exfalso; apply H; now left|exact (Deep H)].
  - destruct (a =? 999); [|exact (Deep H)]. apply Deep. intro. apply H. now right.
Qed.

Definition assigned (sgn : Z) (ids actual : list Z) (i : nat) (addr : list nat) : Prop :=
  List.length addr = List.length actual /\ NoDup (taken addr) /\
  (forall j a, nth_error addr j = Some a -> a <> 999 -> a < i /\ exists d, nth_error ids a = Some d /\ nth_error actual j = Some (sgn * d)%Z).

Lemma assigned_step sgn ids actual i d a1 a2 b1 b2 : i < 999 -> nth_error ids i = Some d -> actual = a1 ++ (sgn * d)%Z :: a2 ->
  List.length a1 = List.length b1 -> assigned sgn ids actual i (b1 ++ 999 :: b2) -> assigned sgn ids actual (S i) (b1 ++ i :: b2).
Proof.
  intros Hi Hd Ea Lb (L & ND & H). split; [rewrite <- L, !app_length; reflexivity|]. split.
  - assert (Hn : ~ In i (taken (b1 ++ 999 :: b2))).
    { intro C. unfold taken in C. apply filter_In in C as [C N]. apply In_nth_error in C as (j & C). destruct (H _ _ C) as [? _]; lia. }
    revert ND Hn. unfold taken. rewrite !filter_app. cbn [filter Nat.eqb negb]. destruct (Nat.eqb_spec i 999) as [?|_]; [lia|]. cbn [negb].
    intros ND Hn. apply NoDup_Add with (l := filter (fun a => negb (a =? 999)) b1 ++ filter (fun a => negb (a =? 999)) b2) (a := i); [apply Add_app|now split].
  - intros j a Hj Ha. destruct (Nat.eq_dec j (List.length b1)) as [->|Nj].
    + rewrite nth_error_app_at in Hj. injection Hj as <-. split; [lia|]. exists d. split; [assumption|]. rewrite Ea, <- Lb. apply nth_error_app_at.
    + assert (Hj' : nth_error (b1 ++ 999 :: b2) j = Some a).
      { destruct (Nat.lt_ge_cases j (List.length b1)); [now rewrite nth_error_app1 in * by lia|].
        rewrite nth_error_app2 in * by lia. destruct (j - List.length b1) eqn:E; [lia|]. exact Hj. }
      destruct (H _ _ Hj' Ha) as [? X]. split; [lia|exact X].
Qed.

Lemma assigned_mono sgn ids actual i addr : assigned sgn ids actual i addr -> assigned sgn ids actual (S i) addr.
Proof. intros (L & ND & H). split; [assumption|]. split; [assumption|]. intros j a Hj Ha. destruct (H j a Hj Ha) as [? X]. split; [lia|exact X]. Qed.

Lemma claims_ok sgn all actual : forall ids i addr, skipn i all = ids -> i + List.length ids <= 999 -> assigned sgn all actual i addr ->
  exists addr', claims sgn i ids actual addr = Ok addr' /\ assigned sgn all actual (i + List.length ids) addr' /\
   (Permutation (free actual addr) (map (Z.mul sgn) ids) -> free actual addr' = []).
Proof.
  induction ids as [|d ids IH]; intros i addr E Hi HA.
  - exists addr. cbn. rewrite Nat.add_0_r. split; [reflexivity|]. split; [assumption|]. intro P. now apply Permutation_nil, Permutation_sym.
  - cbn [claims List.length] in *.
    assert (Hd : nth_error all i = Some d).
    { rewrite <- (firstn_skipn i all), E. rewrite nth_error_app2; rewrite firstn_length_le; try lia.
      - now rewrite Nat.sub_diag.
      - assert (List.length (skipn i all) = S (List.length ids)) by now rewrite E. rewrite skipn_length in H. lia.
      - assert (List.length (skipn i all) = S (List.length ids)) by now rewrite E. rewrite skipn_length in H. lia. }
    assert (E' : skipn (S i) all = ids).
    { clear - E. revert i E. induction all as [|x all IH]; intros [|i] E; cbn in *; try discriminate; [congruence|]. now apply IH. }
    replace (i + S (List.length ids)) with (S i + List.length ids) by lia.
    destruct (in_dec Z.eq_dec (sgn * d)%Z (free actual addr)) as [F|F].
    + destruct (claim_found (sgn * d)%Z i actual addr [] (proj1 HA) F) as (a1 & a2 & b1 & b2 & Ea & Eb & Lb & C).
      cbn [List.length app] in C. rewrite C. cbn [bind].
      rewrite Eb in HA. pose proof (assigned_step sgn all actual i d a1 a2 b1 b2 ltac:(lia) Hd Ea Lb HA) as HA'.
      destruct (IH (S i) (b1 ++ i :: b2) E' ltac:(lia) HA') as (addr' & R & HA2 & FP). exists addr'. split; [exact R|].
      split; [exact HA2|]. intro P. apply FP. cbn [map] in P.
      assert (F2 : free actual (b1 ++ i :: b2) = free a1 b1 ++ free a2 b2).
      { rewrite Ea. unfold free. rewrite combine_app by assumption. cbn [combine]. rewrite filter_app. cbn [filter snd].
        destruct (Nat.eqb_spec i 999); [lia|]. now rewrite map_app. }
      assert (F1 : free actual addr = free a1 b1 ++ (sgn * d)%Z :: free a2 b2).
      { rewrite Ea, Eb. unfold free. rewrite combine_app by assumption. cbn [combine]. rewrite filter_app. cbn [filter snd Nat.eqb].
        now rewrite map_app. }
      rewrite F2. rewrite F1 in P. apply Permutation_sym, Permutation_cons_app_inv, Permutation_sym in P. exact P.
    + pose proof (claim_missing (sgn * d)%Z i actual addr [] (proj1 HA) F) as C. cbn [List.length app] in C. rewrite C. cbn [bind].
      destruct (IH (S i) addr E' ltac:(lia) (assigned_mono _ _ _ _ _ HA)) as (addr' & R & HA2 & FP). exists addr'. split; [exact R|].
      split; [exact HA2|]. intro P. exfalso. apply F. apply (Permutation_in _ (Permutation_sym P)). now left.
Qed.

Lemma free_start actual : free actual (repeat 999 (List.length actual)) = actual.
Proof. induction actual as [|y l IH]; [reflexivity|]. unfold free in *. cbn [List.length repeat combine filter snd Nat.eqb map fst]. now rewrite IH. Qed.

Lemma assigned_start sgn ids actual n : List.length actual = n -> assigned sgn ids actual 0 (repeat 999 n).
Proof.
  intros <-. split; [apply repeat_length|]. split.
  - replace (taken (repeat 999 (List.length actual))) with (@nil nat); [constructor|]. induction (List.length actual); [reflexivity|]. exact IHn.
  - intros j a H Ha. apply nth_error_In, repeat_spec in H. contradiction.
Qed.

Lemma free_nil_full actual addr : List.length addr = List.length actual -> free actual addr = [] <-> ~ In 999 addr.
Proof.
  revert addr; induction actual as [|y actual IH]; intros [|a addr] L; try discriminate; [cbn; tauto|]. injection L as L.
  unfold free in *. cbn [combine filter snd In]. destruct (Nat.eqb_spec a 999) as [->|]; cbn [map]; [split; [discriminate|intro H; exfalso; apply H; now left]|].
  rewrite IH by assumption. tauto.
Qed.

Lemma taken_full addr : ~ In 999 addr -> taken addr = addr.
Proof.
  induction addr as [|a addr IH]; [reflexivity|]. intro H. unfold taken in *. cbn [filter]. destruct (Nat.eqb_spec a 999) as [->|]; [exfalso; apply H; now left|].
  cbn [negb]. f_equal. apply IH. intro. apply H. now right.
Qed.

Lemma full_perm sgn ids actual addr : List.length actual = List.length ids -> assigned sgn ids actual (List.length ids) addr -> ~ In 999 addr ->
  Permutation addr (seq 0 (List.length ids)) /\ Permutation actual (map (Z.mul sgn) ids).
Proof.
  intros L (La & ND & H) F. rewrite taken_full in ND by assumption.
  assert (P : Permutation addr (seq 0 (List.length ids))).
  { apply NoDup_Permutation_bis; [assumption|rewrite seq_length; lia|]. intros a Ha. apply In_nth_error in Ha as (j & Ha).
    destruct (H j a Ha) as [? _]; [intros ->; apply F; now apply nth_error_In in Ha|]. apply in_seq. lia. }
  split; [exact P|].
  assert (E : actual = map (fun a => nth a (map (Z.mul sgn) ids) 0%Z) addr).
  { apply nth_error_ext_eq. intro j. destruct (nth_error addr j) as [a|] eqn:Ea.
    - rewrite (map_nth_error _ _ _ Ea). destruct (H j a Ea) as (_ & d & Hd & ->); [intros ->; apply F; now apply nth_error_In in Ea|].
      f_equal. symmetry. apply nth_error_nth. now apply map_nth_error.
    - replace (nth_error (map _ addr) j) with (@None Z) by (symmetry; apply nth_error_None; rewrite map_length; apply nth_error_None in Ea; lia).
      apply nth_error_None. apply nth_error_None in Ea. lia. }
  rewrite E, P. rewrite <- (map_length (Z.mul sgn) ids). generalize (map (Z.mul sgn) ids). clear.
  induction l as [|x l IH] using rev_ind; [constructor|].
  rewrite app_length. cbn [List.length]. rewrite seq_app, map_app. cbn [seq map Nat.add].
  rewrite nth_middle. apply Permutation_app_tail. rewrite <- IH at 2. apply Permutation_refl'. apply map_ext_in.
  intros k Hk. apply in_seq in Hk. now rewrite app_nth1 by lia.
Qed.

(** ** The whole *)
Section Order.
  Variable A : Type.
  Lemma reorder_from_out e0 : forall a i e, List.length e <= 3996 -> In 999 a -> reorder_from A i a e0 e = UB.
  Proof.
    assert (P : forall e n x e', put A e n x = Ok e' -> List.length e' = List.length e).
    { intros e n x e' H. unfold put in H. destruct (Nat.lt_ge_cases n (List.length e)) as [Hn|Hn].
      - destruct (set_at_Some n x e Hn) as (l' & E & L & _). rewrite E in H. cbn in H. congruence.
      - rewrite set_at_None in H by assumption. discriminate. }
    induction a as [|b a IH]; intros i e L H; [destruct H|]. cbn [reorder_from].
    assert (B : forall j, (exists p, block A e0 j = Ok p) \/ block A e0 j = UB).
    { intro j. unfold block, get. destruct (nth_error e0 (4 * j)), (nth_error e0 (4 * j + 1)), (nth_error e0 (4 * j + 2)), (nth_error e0 (4 * j + 3)); cbn; eauto. }
    destruct (B i) as [[p ->]| ->]; [|reflexivity]. cbn [bind]. destruct p as [[[x y] z] t]. unfold set_block.
    destruct (put A e (4 * b) x) as [e1| | |] eqn:E1; [|reflexivity|unfold put in E1; destruct (set_at (4 * b) x e); discriminate|unfold put in E1; destruct (set_at (4 * b) x e); discriminate]. cbn [bind].
    assert (b <> 999). { intros ->. unfold put in E1. rewrite set_at_None in E1 by lia. discriminate. }
    destruct H as [H|H]; [congruence|]. apply P in E1.
    destruct (put A e1 (4 * b + 1) y) as [e2| | |] eqn:E2; [|reflexivity|unfold put in E2; destruct (set_at (4 * b + 1) y e1); discriminate|unfold put in E2; destruct (set_at (4 * b + 1) y e1); discriminate]. cbn [bind]. apply P in E2.
    destruct (put A e2 (4 * b + 2) z) as [e3| | |] eqn:E3; [|reflexivity|unfold put in E3; destruct (set_at (4 * b + 2) z e2); discriminate|unfold put in E3; destruct (set_at (4 * b + 2) z e2); discriminate]. cbn [bind]. apply P in E3.
    destruct (put A e3 (4 * b + 3) t) as [e4| | |] eqn:E4; [|reflexivity|unfold put in E4; destruct (set_at (4 * b + 3) t e3); discriminate|unfold put in E4; destruct (set_at (4 * b + 3) t e3); discriminate]. cbn [bind]. apply P in E4.
    apply IH; [lia|exact H].
  Qed.

  Lemma ordering_sgn sgn ids actual ps rest : List.length actual = List.length ids -> List.length ps = List.length ids -> List.length ids <= 999 ->
    Permutation actual (map (Z.mul sgn) ids) ->
    exists addr ps', claims sgn 0 ids actual (repeat 999 (List.length ids)) = Ok addr /\
      reorder A addr (flat ps ++ rest) = Ok (flat ps' ++ rest) /\
      Permutation addr (seq 0 (List.length ids)) /\ sent addr ps ps' /\
      forall j a, nth_error addr j = Some a -> exists d, nth_error ids a = Some d /\ nth_error actual j = Some (sgn * d)%Z.
  Proof.
    intros L Lp Ln P.
    destruct (claims_ok sgn ids actual ids 0 (repeat 999 (List.length ids)) eq_refl ltac:(lia) (assigned_start sgn ids actual _ L)) as (addr & C & HA & F).
    rewrite <- L, free_start in F. specialize (F P). rewrite free_nil_full in F by apply HA. cbn [Nat.add] in HA.
    destruct (full_perm sgn ids actual addr L HA F) as (Pa & _).
    assert (La : List.length addr = List.length ids) by (rewrite (proj1 HA); exact L).
    destruct (reorder_flat A addr ps rest) as (ps' & R & S1 & _); [now rewrite La|lia|].
    exists addr, ps'. rewrite <- L in *. split; [exact C|]. split; [exact R|]. split; [exact Pa|]. split; [exact S1|].
    intros j a Hj. destruct HA as (_ & _ & H). destruct (H j a Hj) as [_ X]; [intros ->; apply F; now apply nth_error_In in Hj|exact X].
  Qed.

  Lemma ordering_bad sgn ids actual e : List.length actual = List.length ids -> List.length ids <= 999 -> List.length e <= 3996 ->
    ~ Permutation actual (map (Z.mul sgn) ids) ->
    exists addr, claims sgn 0 ids actual (repeat 999 (List.length ids)) = Ok addr /\ reorder A addr e = UB.
  Proof.
    intros L Ln Le N.
    destruct (claims_ok sgn ids actual ids 0 (repeat 999 (List.length ids)) eq_refl ltac:(lia) (assigned_start sgn ids actual _ L)) as (addr & C & HA & F).
    exists addr. split; [exact C|]. apply reorder_from_out; [exact Le|].
    destruct (in_dec Nat.eq_dec 999 addr) as [I'|I']; [exact I'|]. exfalso. apply N. cbn [Nat.add] in HA. now apply (full_perm sgn ids actual addr).
  Qed.
End Order.

(** ** The symmetriser *)
Section Symmetrise.
  Variable A : Type.
  Notation quad := (A * A * A * A)%type.

  (** A rearrangement among places carrying the same label. *)
  Definition rearranged {L} (labels : list L) (ps ps' : list quad) : Prop :=
    List.length ps' = List.length ps /\
    exists f g : nat -> nat, (forall i, g (f i) = i) /\ (forall i, f (g i) = i) /\
      forall i, i < List.length ps -> f i < List.length ps /\ nth_error labels (f i) = nth_error labels i /\ nth_error ps' (f i) = nth_error ps i.

  Lemma rearranged_refl {L} (labels : list L) ps : rearranged labels ps ps.
  Proof. split; [reflexivity|]. exists (fun i => i), (fun i => i). repeat split; assumption. Qed.

  Lemma rearranged_trans {L} (labels : list L) a b c : rearranged labels a b -> rearranged labels b c -> rearranged labels a c.
  Proof.
    intros (L1 & f & g & F1 & G1 & H1) (L2 & f' & g' & F2 & G2 & H2). split; [lia|].
    exists (fun i => f' (f i)), (fun i => g (g' i)). split; [intro i; now rewrite F2|]. split; [intro i; now rewrite G1|].
    intros i Hi. destruct (H1 i Hi) as (Hb & El & Ep). destruct (H2 (f i) ltac:(lia)) as (Hb' & El' & Ep').
    split; [lia|]. split; congruence.
  Qed.

  Definition transp (i j k : nat) : nat := if k =? i then j else if k =? j then i else k.
  Lemma transp_twice i j k : transp i j (transp i j k) = k.
  Proof.
    unfold transp. destruct (Nat.eqb_spec k i) as [->|]; [destruct (Nat.eqb_spec j i) as [->|]; [reflexivity|]; now rewrite Nat.eqb_refl|].
    destruct (Nat.eqb_spec k j) as [->|]; [now rewrite Nat.eqb_refl|].
    destruct (Nat.eqb_spec k i); [contradiction|]. destruct (Nat.eqb_spec k j); [contradiction|]. reflexivity.
  Qed.

  Lemma exchanged_rearranged {L} (labels : list L) i j ps ps' : i < List.length ps -> j < List.length ps -> nth_error labels i = nth_error labels j ->
    exchanged i j ps ps' -> rearranged labels ps ps'.
  Proof.
    intros Hi Hj El (Ln & H). split; [exact Ln|]. exists (transp i j), (transp i j). split; [apply transp_twice|]. split; [apply transp_twice|].
    intros k Hk. split; [unfold transp; destruct (k =? i), (k =? j); assumption|]. split.
    - unfold transp. destruct (Nat.eqb_spec k i) as [->|]; [now symmetry|]. destruct (Nat.eqb_spec k j) as [->|]; [assumption|reflexivity].
    - rewrite H. fold (transp i j (transp i j k)). now rewrite transp_twice.
  Qed.

  Lemma swap_places_ok l i j : i < List.length l -> j < List.length l -> exists l', swap_places l i j = Ok l' /\ exchanged i j l l'.
  Proof.
    intros Hi Hj. unfold swap_places.
    destruct (nth_error l i) as [a|] eqn:Ea; [|apply nth_error_None in Ea; lia].
    destruct (nth_error l j) as [b|] eqn:Eb; [|apply nth_error_None in Eb; lia]. cbn [of_opt bind].
    destruct (set_at_Some i b l Hi) as (l1 & -> & L1 & N1). cbn [of_opt bind].
    destruct (set_at_Some j a l1 ltac:(lia)) as (l2 & -> & L2 & N2). exists l2. split; [reflexivity|]. split; [lia|].
    intro k. rewrite N2, N1. destruct (Nat.eqb_spec k i) as [->|].
    - destruct (Nat.eqb_spec i j) as [->|]; congruence.
    - destruct (Nat.eqb_spec k j) as [->|]; congruence.
  Qed.

  Lemma exchanged_in {B} i j (l l' : list B) x : exchanged i j l l' -> In x l' -> In x l.
  Proof. intros (_ & H) Hx. apply In_nth_error in Hx as (k & Hx). rewrite H in Hx. now apply nth_error_In in Hx. Qed.

  Lemma shuffle_ok {L} (labels : list L) lab draw rest : (forall k, draw k <= k) -> forall todo index places ps,
    index + todo <= List.length places -> (forall p, In p places -> p < List.length ps /\ nth_error labels p = lab) ->
    exists ps', shuffle_from A todo index draw places (flat ps ++ rest) = Ok (flat ps' ++ rest) /\ rearranged labels ps ps'.
  Proof.
    intro D. induction todo as [|n IH]; intros index places ps Hl Hp.
    - exists ps. split; [reflexivity|apply rearranged_refl].
    - cbn [shuffle_from]. destruct (index =? draw index) eqn:E; [apply IH; [lia|assumption]|].
      pose proof (D index) as Dj. destruct (swap_places_ok places index (draw index) ltac:(lia) ltac:(lia)) as (places' & -> & X). cbn [bind].
      assert (L' : List.length places' = List.length places) by apply X.
      destruct (nth_error places' index) as [a|] eqn:Ea; [|apply nth_error_None in Ea; lia].
      destruct (nth_error places' (draw index)) as [b|] eqn:Eb; [|apply nth_error_None in Eb; lia]. cbn [of_opt bind].
      assert (Ha : In a places) by (eapply exchanged_in; [exact X|now apply nth_error_In in Ea]).
      assert (Hb : In b places) by (eapply exchanged_in; [exact X|now apply nth_error_In in Eb]).
      destruct (Hp a Ha) as [Ha1 Ha2], (Hp b Hb) as [Hb1 Hb2].
      destruct (swap_flat A ps rest a b Ha1 Hb1) as (ps1 & X1 & ->). cbn [bind].
      destruct (IH (S index) places' ps1) as (ps' & R & RR).
      + rewrite L'. lia.
      + intros p Hpp. rewrite (proj1 X1). apply Hp. eapply exchanged_in; [exact X|exact Hpp].
      + exists ps'. split; [exact R|]. eapply rearranged_trans; [|exact RR]. apply (exchanged_rearranged labels a b); congruence.
  Qed.

  Lemma symmetrise_ok {L} (labels : list L) draws rest : (forall g k, draws g k <= k) -> forall groups ps,
    (forall g, In g groups -> exists lab, forall p, In p g -> p < List.length ps /\ nth_error labels p = lab) ->
    exists ps', symmetrise A groups draws (flat ps ++ rest) = Ok (flat ps' ++ rest) /\ rearranged labels ps ps'.
  Proof.
    intro D. induction groups as [|g groups IH]; intros ps H; [exists ps; split; [reflexivity|apply rearranged_refl]|].
    cbn [symmetrise]. destruct (H g (or_introl eq_refl)) as (lab & Hg).
    destruct (shuffle_ok labels lab (draws (List.length groups)) rest (D _) (List.length g) 0 g ps ltac:(lia) Hg) as (ps1 & -> & R1). cbn [bind].
    destruct (IH ps1) as (ps2 & -> & R2).
    - intros g' Hg'. rewrite (proj1 R1). apply H. now right.
    - exists ps2. split; [reflexivity|]. eapply rearranged_trans; eassumption.
  Qed.

  Lemma places_label names n p : In p (places_of names n) -> nth_error names p = Some n.
  Proof.
    unfold places_of. rewrite in_map_iff. intros ([q m] & <- & H). apply filter_In in H as [H E]. cbn [fst snd] in *.
    apply str_eqb_eq in E. subst m. apply In_nth_error in H as (k & H). revert H. 
    assert (G : forall (names : list str) s k q m, nth_error (combine (seq s (List.length names)) names) k = Some (q, m) -> q = s + k /\ nth_error names k = Some m).
    { induction names0 as [|x l IH]; intros s k' q' m' H; [destruct k'; discriminate|]. destruct k'; cbn in H; [injection H as <- <-; split; [lia|reflexivity]|].
      apply IH in H as [-> H]. split; [lia|exact H]. }
    intro H. apply G in H as [-> H]. exact H.
  Qed.

  Lemma groups_label names n g : List.length names = n -> In g (groups_of names) -> exists lab, forall p, In p g -> p < n /\ nth_error names p = lab.
  Proof.
    intros <- H. unfold groups_of in H. apply filter_In in H as [H _]. apply in_map_iff in H as (m & <- & _). exists (Some m). intros p Hp.
    apply places_label in Hp. split; [|exact Hp]. apply nth_error_Some. congruence.
  Qed.
End Symmetrise.
