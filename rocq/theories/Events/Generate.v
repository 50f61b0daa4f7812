(** Proofs about the generation loop. *)
From Verif.Events Require Import Model Spec.
From Coq Require Import Lqa.
Local Open Scope nat_scope.

Section Generate.
  Context {E : Type} (blocks : nat -> list (E * Q)) (value : E -> Q) (rnd : nat -> Q).
  Notation loop := (loop E blocks value rnd). Notation accept := (accept E value rnd). Notation passing := (@passing E rnd).
  Notation trials := (trials blocks value). Notation weighted := (weighted E value). Notation getMax := (getMax E).
  Definition store (l : list E) : list (E * Q) := map (fun e => (e, value e)) l.

  Lemma getMax_largest mc : largest (getMax mc) (map snd mc).
  Proof.
    unfold getMax.
    assert (G : forall mc m, In (fold_left (fun m p => if Qle_bool (snd p) m then m else snd p) mc m) (m :: map snd mc) /\
      (m <= fold_left (fun m p => if Qle_bool (snd p) m then m else snd p) mc m)%Q /\
      forall w, In w (map (@snd E Q) mc) -> (w <= fold_left (fun m p => if Qle_bool (snd p) m then m else snd p) mc m)%Q).
    { clear. induction mc as [|p mc IH]; intro m; cbn [fold_left map]; [split; [now left|]; split; [lra|intros w []]|].
      destruct (Qle_bool (snd p) m) eqn:Ep.
      - apply Qle_bool_iff in Ep. destruct (IH m) as (I1 & I2 & I3). split; [destruct I1 as [<-|I1]; [left; reflexivity|right; right; exact I1]|].
        split; [exact I2|]. intros w [<-|Hw]; [lra|now apply I3].
      - assert (m < snd p)%Q. { apply Qnot_le_lt. intro C. apply Qle_bool_iff in C. congruence. }
        destruct (IH (snd p)) as (I1 & I2 & I3). split; [right; exact I1|]. split; [lra|]. intros w [<-|Hw]; [lra|now apply I3]. }
    destruct (G mc 0%Q) as (G1 & G2 & G3). split; [exact G1|]. intros w [<-|Hw]; [exact G2|now apply G3].
  Qed.

  Lemma passing_app M (l l' : list (E * Q)) k : passing M (l ++ l') k = passing M l k ++ passing M l' (k + List.length l).
  Proof.
    unfold Spec.passing. rewrite app_length, seq_app, map_app.
    assert (C : forall (l1 l2 : list (E * Q)) (r1 r2 : list Q), List.length l1 = List.length r1 -> combine (l1 ++ l2) (r1 ++ r2) = combine l1 r1 ++ combine l2 r2).
    { induction l1 as [|x l1 IH]; intros l2 [|y r1] r2 H; try discriminate; [reflexivity|]. cbn. now rewrite IH by (now injection H). }
    rewrite C by (now rewrite map_length, seq_length). now rewrite filter_app, map_app.
  Qed.

  Lemma passing_cons M e g l k : passing M ((e, g) :: l) k = (if above M g (rnd k) then [e] else []) ++ passing M l (S k).
  Proof.
    unfold Spec.passing, above. cbn [List.length seq map combine filter fst snd].
    destruct (negb (Qle_bool g (M * rnd k))); reflexivity.
  Qed.

  Lemma passing_ext M M' (l : list (E * Q)) k : (M == M')%Q -> passing M l k = passing M' l k.
  Proof.
    intro H. unfold Spec.passing. f_equal. apply filter_ext. intros [[e g] r]. cbn [fst snd]. f_equal.
    assert (X : forall a b, (a <= b)%Q <-> Qle_bool a b = true) by (intros; symmetry; apply Qle_bool_iff).
    destruct (Qle_bool g (M * r)) eqn:A, (Qle_bool g (M' * r)) eqn:B; try reflexivity.
    - apply X in A. rewrite H in A. apply X in A. congruence.
    - apply X in B. rewrite <- H in B. apply X in B. congruence.
  Qed.

  Lemma trials_S b : trials (S b) = trials b ++ map weighted (blocks b).
  Proof. unfold Spec.trials. rewrite seq_S, map_app, concat_app. cbn [map List.concat Nat.add]. now rewrite app_nil_r. Qed.

  Lemma store_app a b : store (a ++ b) = store a ++ store b.
  Proof. apply map_app. Qed.

  Lemma accept_ok M N : forall mc have k l, have < N ->
    exists have' k' l', accept M N have k mc l = (have', k', l') /\
    ((have + List.length (passing M mc k) < N /\ have' = have + List.length (passing M mc k) /\ k' = k + List.length mc /\ l' = l ++ store (passing M mc k))
     \/ (N <= have + List.length (passing M mc k) /\ have' = N /\ l' = l ++ store (firstn (N - have) (passing M mc k)))).
  Proof.
    induction mc as [|[e g] mc IH]; intros have k l H.
    - exists have, k, l. split; [reflexivity|]. left. cbn. repeat split; try lia. now rewrite app_nil_r.
    - cbn [Model.accept]. rewrite passing_cons. destruct (above M g (rnd k)) eqn:Ab; cbn [app List.length].
      + destruct (Nat.eqb_spec (S have) N) as [HN|HN].
        * exists (S have), (S k), (l ++ [(e, value e)]). split; [reflexivity|]. right. split; [lia|]. split; [assumption|].
          replace (N - have) with 1 by lia. reflexivity.
        * destruct (IH (S have) (S k) (l ++ [(e, value e)]) ltac:(lia)) as (h & k' & l' & R & [(A1 & A2 & A3 & A4)|(A1 & A2 & A3)]);
            exists h, k', l'; (split; [exact R|]).
          -- left. repeat split; try lia. rewrite A4, <- app_assoc. reflexivity.
          -- right. repeat split; try lia. rewrite A3, <- app_assoc. replace (N - have) with (S (N - S have)) by lia. reflexivity.
      + destruct (Nat.eqb_spec have N) as [HN|HN]; [lia|].
        destruct (IH have (S k) l H) as (h & k' & l' & R & [(A1 & A2 & A3 & A4)|(A1 & A2 & A3)]);
            exists h, k', l'; (split; [exact R|]).
        * left. repeat split; try lia. exact A4.
        * right. repeat split; try lia. exact A3.
  Qed.

  (** The outcome after [b] whole blocks with [M] fixed. *)
  Definition outcome (M : Q) (N : nat) (l0 : list (E * Q)) (r : list (E * Q) * bool) : Prop :=
    exists b,
      (snd r = true /\ fst r = l0 ++ store (firstn N (passing M (trials b) 0)) /\ N <= List.length (passing M (trials b) 0) /\
        forall b', b' < b -> List.length (passing M (trials b') 0) < N)
      \/ (snd r = false /\ fst r = l0 ++ store (passing M (trials (S b)) 0) /\ List.length (passing M (trials (S b)) 0) < N /\
          passing M (map weighted (blocks b)) (List.length (trials b)) = []).

  Lemma passing_mono M b b' : b <= b' -> List.length (passing M (trials b) 0) <= List.length (passing M (trials b') 0).
  Proof.
    induction 1 as [|b' _ IH]; [lia|]. rewrite trials_S, passing_app, app_length. lia.
  Qed.

  Lemma loop_ok M N l0 : ~ (M == 0)%Q -> forall fuel b, 
    let p := passing M (trials b) 0 in List.length p < N -> N - List.length p < fuel ->
    exists r, loop fuel M N (List.length p) (List.length (trials b)) b (l0 ++ store p) = Ok r /\ outcome M N l0 r.
  Proof.
    intros HM. induction fuel as [|f IH]; intros b p Hp Hf; [lia|]. cbn [Model.loop].
    destruct (Nat.ltb_spec (List.length p) N) as [_|?]; [|lia].
    destruct (Qeq_bool M 0) eqn:EM; [apply Qeq_bool_iff in EM; contradiction|].
    destruct (accept_ok M N (map weighted (blocks b)) (List.length p) (List.length (trials b)) (l0 ++ store p) Hp) as (h & k' & l' & R & Cases).
    rewrite R. clear R. set (q := passing M (map weighted (blocks b)) (List.length (trials b))) in *.
    assert (PS : passing M (trials (S b)) 0 = p ++ q) by (rewrite trials_S, passing_app; reflexivity).
    assert (LS : List.length (trials (S b)) = List.length (trials b) + List.length (map weighted (blocks b))) by (rewrite trials_S, app_length; reflexivity).
    destruct Cases as [(A1 & A2 & A3 & A4)|(A1 & A2 & A3)].
    - destruct (Nat.eqb_spec h (List.length p)) as [Eq|Ne].
      + exists (l', false). split; [reflexivity|]. assert (q = []) as Q0 by (destruct q; [reflexivity|cbn in *; lia]).
        exists b. right. cbn [fst snd]. split; [reflexivity|]. rewrite PS. split; [rewrite A4, <- app_assoc, store_app; reflexivity|].
        split; [rewrite app_length; lia|exact Q0].
      + destruct (IH (S b)) as (r & R & O).
        * rewrite PS, app_length. lia.
        * rewrite PS, app_length. lia.
        * exists r. split; [|exact O]. rewrite <- R, PS, LS, A2, A3, A4, app_length, <- app_assoc, store_app. reflexivity.
    - destruct (Nat.eqb_spec h (List.length p)) as [Eq|Ne]; [lia|]. destruct f as [|f]; [lia|]. cbn [Model.loop].
      destruct (Nat.ltb_spec h N) as [?|_]; [lia|]. exists (l', true). split; [reflexivity|].
      exists (S b). left. cbn [fst snd]. split; [reflexivity|]. rewrite PS. split; [|split].
      + rewrite A3, firstn_app, store_app, <- app_assoc. rewrite (firstn_all2 p) by lia. reflexivity.
      + rewrite app_length. lia.
      + intros b' Hb'. pose proof (passing_mono M b' b ltac:(lia)) as PM. unfold p in Hp. lia.
  Qed.

  Lemma passing_zero M (mc : list (E * Q)) k : (M == 0)%Q -> (forall w, In w (map snd mc) -> (w <= 0)%Q) -> passing M mc k = [].
  Proof.
    intro HM. revert k. induction mc as [|[e g] mc IH]; intros k H; [reflexivity|]. rewrite passing_cons, IH by (intros; apply H; now right).
    assert (A : above M g (rnd k) = false).
    { unfold above. apply negb_false_iff, Qle_bool_iff. rewrite HM. specialize (H g (or_introl eq_refl)). lra. }
    now rewrite A.
  Qed.

  (** The bound used by the acceptance step. *)
  Definition bound (normalise : bool) (M : Q) : Prop :=
    if normalise then exists m, largest m (map (fun p => (value (fst p) / snd p)%Q) (blocks 0)) /\ M = ((3 # 2) * m)%Q else M = 1%Q.

  Lemma fill_ok normalise N l0 : exists M r, bound normalise M /\
    fillEventList E blocks value rnd (S N) true normalise N l0 = Ok r /\ outcome M N l0 r.
  Proof.
    set (mc := map weighted (blocks 0)).
    set (M := if normalise then ((3 # 2) * getMax mc)%Q else 1%Q). exists M.
    assert (B : bound normalise M).
    { unfold bound, M. destruct normalise; [|reflexivity]. exists (getMax mc). split; [|reflexivity].
      pose proof (getMax_largest mc) as L. unfold mc in L at 2. rewrite map_map in L. exact L. }
    destruct N as [|N'].
    { exists (l0, true). split; [exact B|]. split; [reflexivity|]. exists 0. left. cbn. split; [reflexivity|]. split; [now rewrite app_nil_r|]. split; [lia|intros; lia]. }
    remember (S N') as N eqn:EN. cbn [fillEventList].
    destruct (Qeq_dec M 0) as [Z|NZ].
    - (* nothing passes *)
      exists (l0, false). split; [exact B|].
      assert (Q0 : passing M mc 0 = []).
      { apply passing_zero; [exact Z|]. unfold M in Z. destruct normalise; [|discriminate Z]. intros w Hw.
        destruct (getMax_largest mc) as [_ G]. specialize (G w (or_intror Hw)). lra. }
      assert (EM : M = if normalise then ((3 # 2) * getMax mc)%Q else 1%Q) by reflexivity.
      destruct normalise; [|rewrite EM in Z; discriminate Z].
      split.
      + unfold Model.fillEventList. cbn [Model.loop]. destruct (Nat.ltb_spec 0 N); [|lia]. cbn [Qeq_bool Qnum Qden Zeq_bool Z.mul Z.compare].
        change (Qeq_bool 0 0) with true. cbn iota. fold mc. fold M.
        destruct (accept_ok M N mc 0 0 l0 ltac:(lia)) as (h & k' & l' & R & Cases). rewrite R. rewrite Q0 in Cases. cbn [List.length store map firstn] in Cases.
        destruct Cases as [(A1 & A2 & A3 & A4)|(A1 & _)]; [|lia]. subst h. cbn [Nat.add Nat.eqb]. rewrite A4, app_nil_r. reflexivity.
      + exists 0. right. cbn [fst snd]. split; [reflexivity|]. rewrite trials_S. cbn [Spec.trials seq map List.concat app].
        fold mc. rewrite Q0. cbn. split; [now rewrite app_nil_r|]. split; [lia|]. exact Q0.
    - assert (P0 : passing M (trials 0) 0 = []) by reflexivity.
      destruct (loop_ok M N l0 NZ (S N) 0) as (r & R & O); [rewrite P0; cbn; lia|rewrite P0; cbn [List.length]; lia|].
      exists r. split; [exact B|]. split; [|exact O]. rewrite <- R. rewrite P0. cbn [List.length store map Spec.trials seq List.concat].
      rewrite app_nil_r. unfold Model.fillEventList. cbn [Model.loop]. destruct (Nat.ltb_spec 0 N); [|lia].
      assert (F : (if Qeq_bool M 0 then ((3 # 2) * getMax mc)%Q else M) = M).
      { destruct (Qeq_bool M 0) eqn:X; [apply Qeq_bool_iff in X; contradiction|reflexivity]. }
      fold mc. rewrite F.
      assert (F2 : (if Qeq_bool (if normalise then 0%Q else 1%Q) 0 then ((3 # 2) * getMax mc)%Q else (if normalise then 0%Q else 1%Q)) = M).
      { unfold M. destruct normalise; reflexivity. }
      rewrite F2. reflexivity.
  Qed.
End Generate.
