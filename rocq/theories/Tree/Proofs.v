From Verif.Common Require Import Prelude.
From Verif.Tree Require Import Model Spec.

Lemma tree_ind2 (P : tree -> Prop) (H : forall i ds, Forall P ds -> P (Node i ds)) : forall t, P t.
Proof. fix IH 1. intros [i ds]. apply H. induction ds as [|d ds IHd]; constructor; [apply IH|exact IHd]. Qed.

(** ** matches *)
Lemma matches_eq i xs j ys : matches (Node i xs) (Node j ys) =
  if negb (str_eqb (name i) (name j)) then None_
  else if (stable (Node j ys) && negb (stable (Node i xs))) || (negb (stable (Node j ys)) && stable (Node i xs)) then PartialExpansion
  else if negb (List.length ys =? List.length xs) then None_
  else match compare_daughters matches xs ys 0 with None => None_ | Some rt => finish i j rt end.
Proof. reflexivity. Qed.

(** The answer is one of the flags, or a union of flags other than Exact. *)
Definition bits (m : N) (n e p o q : bool) := m = ((if n then 1 else 0) + (if e then 2 else 0) + (if p then 4 else 0) + (if o then 8 else 0) + (if q then 16 else 0))%N.
Definition good (m : N) := exists n e p o q, bits m n e p o q /\ e = negb (n || p || o || q).
Lemma good_nonzero m : good m -> (m =? 0)%N = false.
Proof. intros (n & e & p & o & q & -> & ->). destruct n, p, o, q; reflexivity. Qed.
Definition loose (m : N) := exists n e p o q, bits m n e p o q.
Lemma loose_lor a b : loose a -> loose b -> loose (N.lor a b).
Proof.
  intros (n & e & p & o & q & ->) (n' & e' & p' & o' & q' & ->). exists (n || n'), (e || e'), (p || p'), (o || o'), (q || q'). unfold bits.
  destruct n, e, p, o, q, n', e', p', o', q'; reflexivity.
Qed.
Lemma good_loose m : good m -> loose m. Proof. intros (n & e & p & o & q & B & _). now exists n, e, p, o, q. Qed.
Lemma compare_spec f xs : forall ys rt, (forall x, In x xs -> forall y, good (f x y)) -> loose rt -> List.length xs = List.length ys ->
  exists m, compare_daughters f xs ys rt = Some m /\ loose m /\
    forall b, N.testbit m b = true <-> N.testbit rt b = true \/ exists k x y, nth_error xs k = Some x /\ nth_error ys k = Some y /\ N.testbit (f x y) b = true.
Proof.
  induction xs as [|x xs IH]; intros [|y ys] rt G L E; try discriminate; cbn.
  - exists rt. split; [reflexivity|]. split; [exact L|]. intro b. split; [now left|]. intros [H|([|k] & x & y & H & _)]; [exact H|discriminate|discriminate].
  - rewrite (good_nonzero _ (G x (or_introl eq_refl) y)). destruct (IH ys (N.lor rt (f x y))) as (m & C & Lm & B).
    + intros x' I. apply G. now right.
    + apply loose_lor; [exact L|]. apply good_loose, G. now left.
    + now injection E.
    + exists m. split; [exact C|]. split; [exact Lm|]. intro b. rewrite B, N.lor_spec, orb_true_iff. split.
      * intros [[H|H]|(k & x' & y' & H)]; [now left|right; now exists 0, x, y|right; now exists (S k), x', y'].
      * intros [H|([|k] & x' & y' & H1 & H2 & H3)]; [now left; left|cbn in *; injection H1 as <-; injection H2 as <-; now left; right|right; now exists k, x', y'].
Qed.
Lemma finish_good i j rt : loose rt -> good (finish i j rt) /\
  (forall b, b <> 1%N -> N.testbit (finish i j rt) b = (N.testbit rt b || (negb (orbital i =? orbital j) && (b =? 3)%N) || (negb (Z.eqb (pol i) (pol j)) && (b =? 4)%N))).
Proof.
  intros (n & e & p & o & q & ->). unfold finish. destruct (orbital i =? orbital j), (Z.eqb (pol i) (pol j)); cbn [negb andb];
  (split; [destruct n, e, p, o, q; match goal with |- good ?x => let y := eval vm_compute in x in change (good y) end; unfold good, bits; 
     first [exists false, true, false, false, false; now split|
            exists true, false, false, false, false; now split| exists false, false, true, false, false; now split| exists true, false, true, false, false; now split|
            exists false, false, false, true, false; now split| exists true, false, false, true, false; now split| exists false, false, true, true, false; now split| exists true, false, true, true, false; now split|
            exists false, false, false, false, true; now split|
            exists true, false, false, false, true; now split| exists false, false, true, false, true; now split| exists true, false, true, false, true; now split|
            exists false, false, false, true, true; now split| exists true, false, false, true, true; now split| exists false, false, true, true, true; now split| exists true, false, true, true, true; now split]|]);
  intros b Hb; destruct n, e, p, o, q; destruct b as [|[[[[]|[]|]|[[]|[]|]|]|[[[]|[]|]|[[]|[]|]|]|]]; try (exfalso; now apply Hb); try reflexivity.
Qed.
Lemma somewhere_iff R a b : somewhere R a b <->
  R a b \/ (same_name a b /\ same_width a b /\ exists k x y, nth_error (daughters a) k = Some x /\ nth_error (daughters b) k = Some y /\ somewhere R x y).
Proof.
  split.
  - intros (x & y & F & H). destruct F as [a b|a b x y k x' y' N W Hx Hy F]; [now left|]. right. split; [exact N|]. split; [exact W|]. exists k, x, y. repeat split; try assumption. now exists x', y'.
  - intros [H|(N & W & k & x & y & Hx & Hy & x' & y' & F & H)]; [exists a, b; split; [constructor|exact H]|]. exists x', y'. split; [|exact H]. eapply facing_below; eassumption.
Qed.
Definition flags (m : N) (a b : tree) := good m /\ (N.testbit m 0 = true <-> somewhere other_particles a b) /\ (N.testbit m 2 = true <-> somewhere expanded_once a b) /\
  (N.testbit m 3 = true <-> somewhere other_orbital a b) /\ (N.testbit m 4 = true <-> somewhere other_polarisation a b).
Lemma nil_dec {A} (l : list A) : {l = []} + {l <> []}. Proof. destruct l; [now left|now right]. Qed.
Lemma matches_flags : forall a b, flags (matches a b) a b.
Proof.
  induction a as [i xs IH] using tree_ind2. intros [j ys]. rewrite matches_eq. rewrite Forall_forall in IH.
  destruct (str_eqb_spec (name i) (name j)) as [N|N]; cbn [negb].
  2:{ unfold flags. split. { exists true, false, false, false, false. now split. } cbn. rewrite !somewhere_iff. unfold other_particles, expanded_once, other_orbital, other_polarisation, same_name, same_width. cbn [item_of daughters].
      repeat split; try discriminate; tauto. }
  destruct ((stable (Node j ys) && negb (stable (Node i xs))) || (negb (stable (Node j ys)) && stable (Node i xs))) eqn:P.
  { assert (P' : xs = [] /\ ys <> [] \/ xs <> [] /\ ys = []). { destruct xs, ys; cbn in P; try discriminate; [left; now split|right; now split]. }
    unfold flags. split. { exists false, false, true, false, false. now split. } cbn. rewrite !somewhere_iff. unfold other_particles, expanded_once, other_orbital, other_polarisation, same_name, same_width. cbn [item_of daughters].
    assert (W : List.length xs <> List.length ys). { destruct P' as [[-> H]|[H ->]]; [destruct ys|destruct xs]; try congruence; discriminate. }
    repeat split; try discriminate; try tauto. all: intros; exfalso; tauto. }
  assert (P' : xs = [] <-> ys = []). { destruct xs, ys; cbn in P; try discriminate; split; congruence. } clear P.
  destruct (Nat.eqb_spec (List.length ys) (List.length xs)) as [W|W]; cbn [negb].
  2:{ unfold flags. split. { exists true, false, false, false, false. now split. } cbn. rewrite !somewhere_iff. unfold other_particles, expanded_once, other_orbital, other_polarisation, same_name, same_width. cbn [item_of daughters].
      assert (X : xs <> []). { intro E. pose proof (proj1 P' E). subst. now apply W. } assert (Y : ys <> []) by (rewrite <- P'; exact X).
      repeat split; try discriminate; try (intros; exfalso; intuition congruence). intros _. left. right. repeat split; congruence. }
  destruct (compare_spec matches xs ys 0%N) as (m & -> & L & B).
  { intros x I y. now apply IH. } { exists false, false, false, false, false. reflexivity. } { now symmetry. }
  destruct (finish_good i j m L) as (G & F). split; [exact G|].
  assert (D : forall b R, b <> 1%N -> (forall x, In x xs -> forall y, N.testbit (matches x y) b = true <-> somewhere R x y) ->
             (N.testbit m b = true <-> exists k x y, nth_error xs k = Some x /\ nth_error ys k = Some y /\ somewhere R x y)).
  { intros b R Hb H. rewrite B. rewrite N.bits_0. split.
    - intros [E|(k & x & y & Hx & Hy & E)]; [discriminate|]. exists k, x, y. repeat split; try assumption. apply H; [|exact E]. now apply nth_error_In in Hx.
    - intros (k & x & y & Hx & Hy & E). right. exists k, x, y. repeat split; try assumption. apply H; [|exact E]. now apply nth_error_In in Hx. }
  rewrite !F by discriminate. cbn [N.eqb Pos.eqb]. rewrite !andb_false_r, !andb_true_r, !orb_false_r, !orb_true_iff, !negb_true_iff, Nat.eqb_neq, Z.eqb_neq.
  rewrite (D 0%N other_particles), (D 2%N expanded_once), (D 3%N other_orbital), (D 4%N other_polarisation); try discriminate; try (intros x I y; now apply IH).
  rewrite !(somewhere_iff _ (Node i xs)). unfold same_name, same_width. cbn [item_of daughters]. 
  assert (O1 : ~ other_particles (Node i xs) (Node j ys)). { unfold other_particles. cbn. intuition congruence. }
  assert (O2 : ~ expanded_once (Node i xs) (Node j ys)). { unfold expanded_once. cbn. intuition congruence. }
  assert (O3 : other_orbital (Node i xs) (Node j ys) <-> orbital i <> orbital j). { unfold other_orbital, same_name, same_width. cbn. intuition congruence. }
  assert (O4 : other_polarisation (Node i xs) (Node j ys) <-> pol i <> pol j). { unfold other_polarisation, same_name, same_width. cbn. intuition congruence. }
  rewrite O3, O4. symmetry in W. intuition.
Qed.
Lemma exact_bits m : good m -> (m = Exact <-> N.testbit m 0 = false /\ N.testbit m 2 = false /\ N.testbit m 3 = false /\ N.testbit m 4 = false).
Proof. intros (n & e & p & o & q & -> & ->). unfold Exact. destruct n, p, o, q; cbn; (split; [discriminate||(intros _; now repeat split)|intros (A & B & C & D); first [discriminate A|discriminate B|discriminate C|discriminate D|reflexivity]]). Qed.
Lemma same_dec : forall a b, (~ somewhere other_particles a b /\ ~ somewhere expanded_once a b /\ ~ somewhere other_orbital a b /\ ~ somewhere other_polarisation a b) <-> same_decay a b.
Proof.
  induction a as [i xs IH] using tree_ind2. intros [j ys]. rewrite Forall_forall in IH. rewrite !(somewhere_iff _ (Node i xs)). unfold same_name, same_width. cbn [item_of daughters]. split.
  - intros (H1 & H2 & H3 & H4).
    assert (N : name i = name j). { destruct (str_dec (name i) (name j)); [assumption|]. exfalso. apply H1. left. now left. }
    assert (W : List.length xs = List.length ys).
    { destruct (Nat.eq_dec (List.length xs) (List.length ys)); [assumption|]. exfalso. destruct (nil_dec xs) as [X|X], (nil_dec ys) as [Y|Y].
      - subst. contradiction. - apply H2. left. split; [exact N|]. left. now split. - apply H2. left. split; [exact N|]. right. now split. - apply H1. left. right. now repeat split. }
    constructor; [exact N| | |].
    + destruct (Nat.eq_dec (orbital i) (orbital j)); [assumption|]. exfalso. apply H3. left. now repeat split.
    + destruct (Z.eq_dec (pol i) (pol j)); [assumption|]. exfalso. apply H4. left. now repeat split.
    + assert (Hd : forall k x y, nth_error xs k = Some x -> nth_error ys k = Some y -> same_decay x y).
      { intros k x y Hx Hy. apply IH; [now apply nth_error_In in Hx|]. repeat split; intro E; [apply H1|apply H2|apply H3|apply H4]; right; (split; [exact N|split; [exact W|now exists k, x, y]]). }
      clear -W Hd. revert ys W Hd. induction xs as [|x xs IHx]; intros [|y ys] W Hd; try discriminate; constructor; [now apply (Hd 0)|]. apply IHx; [now injection W|]. intros k. apply (Hd (S k)).
  - intro S. inversion S as [? ? ? ? N O P F]; subst.
    assert (W : List.length xs = List.length ys). { clear -F. induction F; cbn; congruence. }
    assert (Hd : forall k x y, nth_error xs k = Some x -> nth_error ys k = Some y -> same_decay x y).
    { clear -F. induction F; intros [|k] a b Ha Hb; try discriminate; cbn in *; [now injection Ha as <-; injection Hb as <-|now apply (IHF k)]. }
    assert (T : forall R, ~ R (Node i xs) (Node j ys) -> (forall x y, same_decay x y -> In x xs -> ~ somewhere R x y) ->
        ~ (R (Node i xs) (Node j ys) \/ name i = name j /\ List.length xs = List.length ys /\ exists k x y, nth_error xs k = Some x /\ nth_error ys k = Some y /\ somewhere R x y)).
    { intros R H0 H1 [H|(_ & _ & k & x & y & Hx & Hy & H)]; [now apply H0|]. apply (H1 x y); [now apply (Hd k)| |exact H]. now apply nth_error_In in Hx. }
    repeat split; apply T; try (intros x y Sx I; apply IH in Sx; [tauto|exact I]).
    + unfold other_particles. cbn. intuition congruence.
    + unfold expanded_once. cbn. intros (_ & [[-> H]|[H ->]]); [destruct ys|destruct xs]; cbn in W; congruence.
    + unfold other_orbital. cbn. intuition congruence.
    + unfold other_polarisation. cbn. intuition congruence.
Qed.
Lemma matches_exact a b : matches a b = Exact <-> same_decay a b.
Proof.
  destruct (matches_flags a b) as (G & F0 & F2 & F3 & F4). rewrite exact_bits by exact G. rewrite <- same_dec. rewrite <- F0, <- F2, <- F3, <- F4. rewrite !not_true_iff_false. tauto.
Qed.
Lemma facing_sym a b x y : facing a b x y -> facing b a y x.
Proof. induction 1; [constructor|]. eapply facing_below; eauto. Qed.
Lemma somewhere_sym (R : tree -> tree -> Prop) : (forall x y, R x y -> R y x) -> forall a b, somewhere R a b -> somewhere R b a.
Proof. intros H a b (x & y & F & r). exists y, x. split; [now apply facing_sym|now apply H]. Qed.
Lemma good_eq m m' : good m -> good m' -> N.testbit m 0 = N.testbit m' 0 -> N.testbit m 2 = N.testbit m' 2 -> N.testbit m 3 = N.testbit m' 3 -> N.testbit m 4 = N.testbit m' 4 -> m = m'.
Proof. intros (n & e & p & o & q & -> & ->) (n' & e' & p' & o' & q' & -> & ->). destruct n, p, o, q, n', p', o', q'; cbn; congruence. Qed.
Lemma iff_bool (a b : bool) : (a = true <-> b = true) -> a = b. Proof. destruct a, b; intuition. Qed.
Lemma matches_sym a b : matches a b = matches b a.
Proof.
  destruct (matches_flags a b) as (G & F0 & F2 & F3 & F4). destruct (matches_flags b a) as (G' & F0' & F2' & F3' & F4').
  apply good_eq; try assumption; apply iff_bool.
  - rewrite F0, F0'. split; apply somewhere_sym; unfold other_particles; intros x y; intuition.
  - rewrite F2, F2'. split; apply somewhere_sym; unfold expanded_once, same_name; intros x y; intuition.
  - rewrite F3, F3'. split; apply somewhere_sym; unfold other_orbital, same_name, same_width; intros x y; intuition.
  - rewrite F4, F4'. split; apply somewhere_sym; unfold other_polarisation, same_name, same_width; intros x y; intuition.
Qed.
Lemma find_from_ok p : forall cs n k, find_from n p cs = Ok k <-> exists c, n <= k /\ nth_error cs (k - n) = Some c /\ same_decay p c /\ forall i c', n <= i < k -> nth_error cs (i - n) = Some c' -> ~ same_decay p c'.
Proof.
  induction cs as [|c cs IH]; intros n k; cbn.
  - split; [discriminate|]. intros (c & _ & H & _). destruct (k - n); discriminate.
  - destruct (N.eqb_spec (matches p c) Exact) as [E|E]; rewrite matches_exact in E.
    + split.
      * intro H; injection H as <-. exists c. rewrite Nat.sub_diag. repeat split; auto. intros i c' Hi. lia.
      * intros (c' & L & H & Sc & F). destruct (Nat.eq_dec n k) as [->|D]; [reflexivity|]. exfalso. apply (F n c); [lia| |exact E]. now rewrite Nat.sub_diag.
    + rewrite IH. split.
      * intros (c' & L & H & Sc & F). exists c'. split; [lia|]. replace (k - n) with (S (k - S n)) by lia. split; [exact H|]. split; [exact Sc|].
        intros i c'' Hi Hc. destruct (Nat.eq_dec i n) as [->|D]; [rewrite Nat.sub_diag in Hc; cbn in Hc; injection Hc as <-; exact E|].
        apply (F i); [lia|]. replace (i - n) with (S (i - S n)) in Hc by lia. exact Hc.
      * intros (c' & L & H & Sc & F). assert (n <> k). { intros ->. rewrite Nat.sub_diag in H. cbn in H. injection H as <-. contradiction. }
        exists c'. split; [lia|]. replace (k - n) with (S (k - S n)) in H by lia. split; [exact H|]. split; [exact Sc|].
        intros i c'' Hi Hc. apply (F i); [lia|]. replace (i - n) with (S (i - S n)) by lia. exact Hc.
Qed.
