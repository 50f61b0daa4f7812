From Coq Require Import Reals Lra.
From Verif.Errors Require Import Model Spec Sums.

Lemma posMap_some : forall l k x i, posMap_from k l x = Some i -> k <= i /\ exists q, nth_error l (i - k) = Some q /\ pname q = x.
Proof.
  induction l as [|q l IH]; intros k x i H; [discriminate|]. cbn [posMap_from] in H. destruct (posMap_from (S k) l x) as [j|] eqn:E.
  - injection H as ->. apply IH in E as (L & r & N & P). split; [lia|]. exists r. split; [|exact P]. replace (i - k) with (S (i - S k)) by lia. exact N.
  - destruct (str_eqb_spec (pname q) x) as [P | _]; [|discriminate]. injection H as ->. split; [lia|]. exists q. rewrite Nat.sub_diag. now split.
Qed.
Lemma posMap_none : forall l k x, posMap_from k l x = None <-> existsb (fun r => str_eqb (pname r) x) l = false.
Proof.
  induction l as [|q l IH]; intros k x; [now split|]. cbn [posMap_from existsb]. specialize (IH (S k) x). destruct (posMap_from (S k) l x) as [j|].
  - destruct IH as [_ IH]. destruct (existsb _ l); [|now specialize (IH eq_refl)]. rewrite orb_true_r. now split.
  - destruct IH as [-> _]; [|reflexivity]. rewrite orb_false_r. destruct (str_eqb (pname q) x); now split.
Qed.

Lemma place_ok : forall pos l super props new, place pos super l = (props, new) ->
  new = filter (fun q => match pos (pname q) with Some _ => false | None => true end) l /\ List.length props = List.length l /\
  forall x q, nth_error l x = Some q -> exists k, nth_error props x = Some k /\ (pos (pname q) = Some k \/ exists d, k = super + d /\ nth_error new d = Some q).
Proof.
  intros pos. induction l as [|q l IH]; intros super props new H; cbn [place] in H.
  - injection H as <- <-. split; [reflexivity|]. split; [reflexivity|]. intros [|x] q' E; discriminate.
  - cbn [filter]. destruct (pos (pname q)) as [k|] eqn:Pq.
    + destruct (place pos super l) as [ps nw] eqn:E. injection H as <- <-. destruct (IH _ _ _ E) as (A & B & C). split; [exact A|]. split; [cbn; now rewrite B|].
      intros [|x] q' N; cbn [nth_error] in *; [|now apply C]. injection N as <-. exists k. auto.
    + destruct (place pos (S super) l) as [ps nw] eqn:E. injection H as <- <-. destruct (IH _ _ _ E) as (A & B & C). split; [now rewrite A|]. split; [cbn; now rewrite B|].
      intros [|x] q' N; cbn [nth_error] in *.
      * injection N as <-. exists super. split; [reflexivity|]. right. exists 0. split; [lia|reflexivity].
      * destruct (C x q' N) as (k & K & [D | (d & -> & D)]); [eauto|]. exists (S super + d). split; [exact K|]. right. exists (S d). split; [lia|exact D].
Qed.

Lemma over_square n f : over (square n) f = over (upto n) (fun x => over (upto n) (fun y => f (x, y))).
Proof.
  unfold square, upto. generalize (seq 0 n) as k. intro k. assert (G : forall l, over (flat_map (fun x => map (fun y => (x, y)) k) l) f = over l (fun x => over k (fun y => f (x, y)))); [|apply G].
  induction l as [|x l IH]; [reflexivity|]. cbn [flat_map]. rewrite over_app, IH, over_map. reflexivity.
Qed.
Lemma in_square n x y : In (x, y) (square n) <-> x < n /\ y < n.
Proof.
  unfold square. rewrite in_flat_map. split.
  - intros (a & I & J). apply in_map_iff in J as (b & E & J). apply in_seq in I, J. injection E as -> ->. lia.
  - intros [H K]. exists x. split; [apply in_seq; lia|]. apply in_map_iff. exists y. split; [reflexivity|apply in_seq; lia].
Qed.
Lemma fold_copy g : forall L e i j, fold_left (fun e xy => assign e (fst xy) (snd xy) (g (fst xy) (snd xy))) L e i j =
  (if existsb (fun xy => Nat.eqb i (fst xy) && Nat.eqb j (snd xy)) L then g i j else e i j).
Proof.
  induction L as [|[x y] L IH]; intros e i j; [reflexivity|]. cbn [fold_left existsb fst snd]. rewrite IH. destruct (existsb _ L); [now rewrite orb_true_r|]. rewrite orb_false_r. unfold assign.
  destruct (Nat.eqb_spec i x) as [-> |], (Nat.eqb_spec j y) as [-> |]; reflexivity.
Qed.
Lemma fold_accumulate (px py : nat * nat -> nat) g : forall L e i j,
  fold_left (fun e xy => assign e (px xy) (py xy) (e (px xy) (py xy) + g xy)%R) L e i j = (e i j + over L (fun xy => if Nat.eqb (px xy) i && Nat.eqb (py xy) j then g xy else 0))%R.
Proof.
  induction L as [|xy L IH]; intros e i j; [cbn; ring|]. cbn [fold_left over]. rewrite IH. unfold assign. rewrite (Nat.eqb_sym i), (Nat.eqb_sym j).
  destruct (Nat.eqb_spec (px xy) i) as [<- |], (Nat.eqb_spec (py xy) j) as [<- |]; cbn [andb]; ring.
Qed.
Lemma over_upto_extend n k f : (forall i, n <= i -> f i = 0%R) -> over (upto (n + k)) f = over (upto n) f.
Proof. intro H. unfold upto. rewrite seq_app, over_app, (over_zero (seq _ k)); [apply Rplus_0_r|]. intros i I. apply in_seq in I. apply H. lia. Qed.

Section Merge.
  Variables (p p2 : propagator).
  Hypothesis W : wf p.
  Hypothesis W2 : wf p2.
  Lemma merge : exists q, add p p2 = Ok q /\ wf q /\ params q = params p ++ filter (fun x => negb (in_names p x)) (params p2) /\ forall a b, covariance q a b = (covariance p a b + covariance p2 a b)%R.
  Proof.
    unfold add, wf, size in *. rewrite W, W2, !Nat.leb_refl. cbn [andb]. set (n := List.length (params p)) in *. set (n2 := List.length (params p2)) in *.
    destruct (place (posMap p) n (params p2)) as [props new] eqn:Pl. destruct (place_ok _ _ _ _ _ Pl) as (En & Lp & Pp). clear Pl.
    assert (En' : new = filter (fun x => negb (in_names p x)) (params p2)).
    { rewrite En. apply filter_ext. intro x. unfold in_names, posMap. destruct (posMap_none (params p) 0 (pname x)) as [A B]. destruct (posMap_from 0 (params p) (pname x)), (existsb _ (params p)); try reflexivity; [discriminate (B eq_refl)|discriminate (A eq_refl)]. }
    rewrite <- En'. eexists. split; [reflexivity|]. cbn [cov params rows]. set (S := n + List.length new) in *.
    assert (Em : rows (if Nat.eqb S n then cov p else resize (cov p) S) = S).
    { destruct (Nat.eqb_spec S n) as [-> | N]; [exact W|]. unfold resize. rewrite W. destruct (Nat.eqb_spec S n); [contradiction|reflexivity]. }
    split; [rewrite Em, app_length; reflexivity|]. split; [reflexivity|]. intros a b. unfold covariance at 1. cbn [cov params entry rows].
    rewrite app_length. fold n. fold S.
    set (nm := named {| cov := _; params := params p ++ new |}).
    assert (Nm : forall i x, nm i x = match nth_error (params p ++ new) i with Some q => str_eqb (pname q) x | None => false end) by reflexivity. clearbody nm.
    (* positions of the second propagator's parameters *)
    assert (Pn : forall x y, x < n2 -> nth x props O < S /\ nm (nth x props O) y = named p2 x y).
    { intros x y L. unfold named. destruct (nth_error (params p2) x) as [q|] eqn:Eq; [|apply nth_error_None in Eq; unfold n2 in L; lia].
      destruct (Pp x q Eq) as (k & K & H). rewrite (nth_error_nth _ _ 0 K). rewrite Nm. destruct H as [H | (d & -> & H)].
      - apply posMap_some in H as (_ & r & R & P). rewrite Nat.sub_0_r in R. assert (k < n) by (apply nth_error_Some; now rewrite R). split; [unfold S; lia|]. rewrite nth_error_app1 by assumption. now rewrite R, P.
      - assert (d < List.length new) by (apply nth_error_Some; now rewrite H). split; [unfold S; lia|]. rewrite nth_error_app2 by (fold n; lia). fold n. replace (n + d - n) with d by lia. now rewrite H. }
    assert (Po : forall i y, i < n -> nm i y = named p i y) by (intros i y L; rewrite Nm; unfold named; now rewrite nth_error_app1).
    set (e1 := fold_left _ (square n) _). 
    assert (E1 : forall i j, i < S -> j < S -> e1 i j = if Nat.ltb i n && Nat.ltb j n then entry (cov p) i j else 0%R).
    { intros i j Li Lj. unfold e1. rewrite fold_copy.
      assert (X : existsb (fun xy => Nat.eqb i (fst xy) && Nat.eqb j (snd xy)) (square n) = Nat.ltb i n && Nat.ltb j n).
      { apply eq_true_iff_eq. rewrite existsb_exists, andb_true_iff, !Nat.ltb_lt. split.
        - intros ([x y] & I & E). apply in_square in I. cbn [fst snd] in E. apply andb_prop in E as [A B]. apply Nat.eqb_eq in A, B. lia.
        - intros I. exists (i, j). split; [now apply in_square|]. cbn [fst snd]. now rewrite !Nat.eqb_refl. }
      rewrite X. destruct (Nat.ltb i n && Nat.ltb j n) eqn:Q; [reflexivity|]. destruct (Nat.eqb_spec S n) as [Es | N].
      - exfalso. rewrite Es in *. apply Nat.ltb_lt in Li, Lj. rewrite Li, Lj in Q. discriminate.
      - unfold resize. rewrite W. destruct (Nat.eqb_spec S n); [contradiction|]. cbn [entry]. now rewrite Q. }
    clearbody e1. set (e2 := fold_left _ (square n2) _).
    assert (E2 : forall i j, e2 i j = (e1 i j + over (square n2) (fun xy => if Nat.eqb (nth (fst xy) props O) i && Nat.eqb (nth (snd xy) props O) j then entry (cov p2) (fst xy) (snd xy) else 0))%R).
    { intros i j. unfold e2. exact (fold_accumulate (fun xy => nth (fst xy) props O) (fun xy => nth (snd xy) props O) (fun xy => entry (cov p2) (fst xy) (snd xy)) (square n2) e1 i j). }
    clearbody e2.
    transitivity (over (upto S) (fun i => over (upto S) (fun j => if nm i a && nm j b then e1 i j else 0)) + 
      over (upto S) (fun i => over (upto S) (fun j => over (square n2) (fun xy => if Nat.eqb i (nth (fst xy) props O) then if Nat.eqb j (nth (snd xy) props O) then if nm i a && nm j b then entry (cov p2) (fst xy) (snd xy) else 0 else 0 else 0))))%R.
    { rewrite <- over_plus. apply over_ext. intros i _. rewrite <- over_plus. apply over_ext. intros j _. rewrite E2. destruct (nm i a && nm j b).
      - f_equal. apply over_ext. intros xy _. rewrite (Nat.eqb_sym i), (Nat.eqb_sym j). destruct (Nat.eqb (nth (fst xy) props O) i), (Nat.eqb (nth (snd xy) props O) j); reflexivity.
      - rewrite over_zero; [ring|]. intros xy _. destruct (Nat.eqb i (nth (fst xy) props O)), (Nat.eqb j (nth (snd xy) props O)); reflexivity. }
    f_equal.
    - unfold covariance. fold n. unfold S. rewrite over_upto_extend.
      + apply over_ext. intros i I. apply in_upto in I. rewrite over_upto_extend.
        * apply over_ext. intros j J. apply in_upto in J. rewrite E1, !Po by (unfold S; lia). assert (Li : Nat.ltb i n = true) by now apply Nat.ltb_lt. assert (Lj : Nat.ltb j n = true) by now apply Nat.ltb_lt. now rewrite Li, Lj.
        * intros j J. destruct (nm i a && nm j b) eqn:Q; [|reflexivity]. apply andb_prop in Q as [_ Q]. rewrite Nm in Q. assert (j < S) by (unfold S, n; rewrite <- app_length; apply nth_error_Some; intro Z; rewrite Z in Q; discriminate).
          rewrite E1 by (unfold S in *; lia). replace (Nat.ltb j n) with false by (symmetry; now apply Nat.ltb_ge). now rewrite andb_false_r.
      + intros i I. apply over_zero. intros j J. apply in_upto in J. destruct (nm i a && nm j b) eqn:Q; [|reflexivity]. apply andb_prop in Q as [Q _]. rewrite Nm in Q. assert (i < S) by (unfold S, n; rewrite <- app_length; apply nth_error_Some; intro Z; rewrite Z in Q; discriminate).
        rewrite E1 by (unfold S in *; lia). replace (Nat.ltb i n) with false by (symmetry; now apply Nat.ltb_ge). reflexivity.
    - assert (Y : over (upto S) (fun i => over (upto S) (fun j => over (square n2) (fun xy => if Nat.eqb i (nth (fst xy) props O) then if Nat.eqb j (nth (snd xy) props O) then if nm i a && nm j b then entry (cov p2) (fst xy) (snd xy) else 0 else 0 else 0)))%R =
        over (square n2) (fun xy => if nm (nth (fst xy) props O) a && nm (nth (snd xy) props O) b then entry (cov p2) (fst xy) (snd xy) else 0%R)).
      { transitivity (over (upto S) (fun i => over (square n2) (fun xy => if Nat.eqb i (nth (fst xy) props O) then if nm i a && nm (nth (snd xy) props O) b then entry (cov p2) (fst xy) (snd xy) else 0 else 0)))%R.
        - apply over_ext. intros i _. rewrite over_swap. apply over_ext. intros [x y] I. apply in_square in I as [_ I]. cbn [fst snd]. destruct (Nat.eqb i (nth x props O)); [|now apply over_zero].
          rewrite (over_delta S (nth y props O) (fun j => if nm i a && nm j b then entry (cov p2) x y else 0%R)); [reflexivity|]. now apply (Pn y a).
        - rewrite over_swap. apply over_ext. intros [x y] I. apply in_square in I as [I _]. cbn [fst snd].
          rewrite (over_delta S (nth x props O) (fun i => if nm i a && nm (nth y props O) b then entry (cov p2) x y else 0%R)); [reflexivity|]. now apply (Pn x a). }
      rewrite Y, over_square. unfold covariance. fold n2. apply over_ext. intros x X. apply over_ext. intros y Z. apply in_upto in X, Z. cbn [fst snd]. destruct (Pn x a X) as [_ ->]. destruct (Pn y b Z) as [_ ->]. reflexivity.
  Qed.
End Merge.

(** After a reset, adding gives the propagator added. *)
Lemma reset_add p p2 : wf p2 -> params p2 <> [] -> exists q, add (reset p) p2 = Ok q /\ wf q /\ params q = params p2 /\ forall i j, i < size p2 -> j < size p2 -> entry (cov q) i j = entry (cov p2) i j.
Proof.
  intros W2 Ne. unfold add, wf, size in *. cbn [reset params cov rows List.length]. rewrite W2, Nat.leb_refl. cbn [Nat.leb andb]. set (n2 := List.length (params p2)) in *.
  assert (Pl : forall l k, place (posMap (reset p)) k l = (seq k (List.length l), l)) by (induction l as [|q l IH]; intro k; cbn [place]; [reflexivity|]; change (posMap (reset p) (pname q)) with (@None nat); cbv iota; now rewrite IH).
  rewrite Pl. cbn [Nat.add square flat_map seq fold_left app]. fold n2. eexists. split; [reflexivity|]. cbn [cov params rows entry].
  assert (N0 : Nat.eqb n2 0 = false) by (unfold n2; destruct (params p2); [congruence|reflexivity]). rewrite N0.
  split; [unfold resize; cbn [rows]; destruct (Nat.eqb_spec n2 (rows (cov p))) as [<- |]; reflexivity|]. split; [reflexivity|]. intros i j Li Lj.
  rewrite (fold_accumulate (fun xy => nth (fst xy) (seq 0 n2) 0) (fun xy => nth (snd xy) (seq 0 n2) 0) (fun xy => entry (cov p2) (fst xy) (snd xy))).
  assert (Z : entry (resize (Matrix (rows (cov p)) (fun _ _ => 0%R)) n2) i j = 0%R) by (unfold resize; cbn [rows]; destruct (Nat.eqb n2 (rows (cov p))); cbn [entry]; [reflexivity|now destruct (Nat.ltb i (rows (cov p)) && Nat.ltb j (rows (cov p)))%bool]).
  rewrite Z, Rplus_0_l, over_square.
  transitivity (over (upto n2) (fun x => if Nat.eqb x i then over (upto n2) (fun y => if Nat.eqb y j then entry (cov p2) x y else 0) else 0))%R.
  - apply over_ext. intros x X. apply in_upto in X. destruct (Nat.eqb_spec x i) as [E | N].
    + apply over_ext. intros y Y. apply in_upto in Y. cbn [fst snd]. rewrite !seq_nth by assumption. cbn [Nat.add]. subst. now rewrite Nat.eqb_refl.
    + apply over_zero. intros y Y. apply in_upto in Y. cbn [fst snd]. rewrite !seq_nth by assumption. cbn [Nat.add]. destruct (Nat.eqb_spec x i); [contradiction|reflexivity].
  - rewrite (over_delta n2 i) by exact Li. now rewrite (over_delta n2 j) by exact Lj.
Qed.

(** Without a covariance matrix: the errors on the diagonal. *)
Lemma over_nth {A} (l : list A) d f : over (upto (List.length l)) (fun i => f (nth i l d)) = over l f.
Proof.
  induction l as [|x l IH]; [reflexivity|]. cbn [List.length over]. unfold upto. cbn [seq over]. f_equal. rewrite <- seq_shift, over_map. exact IH.
Qed.
Lemma diagonal_ok ps : wf (diagonal ps) /\ forall a b, covariance (diagonal ps) a b =
  over ps (fun q => let '(x, free, err) := q in if free && str_eqb (pname x) a && str_eqb (pname x) b then (err * err)%R else 0%R).
Proof.
  unfold diagonal. set (l := filter _ ps). split; [unfold wf; cbn [cov params rows]; now rewrite map_length|]. intros a b. unfold covariance. cbn [cov params rows entry]. rewrite map_length.
  set (d := (Param [] 0, false, 0%R)). set (P := Prop_ _ _).
  assert (Nm : forall i x, i < List.length l -> named P i x = str_eqb (pname (fst (fst (nth i l d)))) x).
  { intros i x L. unfold named, P. cbn [params]. rewrite nth_error_map, (nth_error_nth' l d L). reflexivity. }
  clearbody P. transitivity (over l (fun q => if str_eqb (pname (fst (fst q))) a && str_eqb (pname (fst (fst q))) b then (snd q * snd q)%R else 0%R)).
  - rewrite <- (over_nth l d). apply over_ext. intros i I. apply in_upto in I.
    rewrite <- (over_delta (List.length l) i (fun j => if str_eqb (pname (fst (fst (nth i l d)))) a && str_eqb (pname (fst (fst (nth j l d)))) b then (snd (nth i l d) * snd (nth i l d))%R else 0%R) I).
    apply over_ext. intros j J. apply in_upto in J. rewrite !Nm by assumption. rewrite (Nat.eqb_sym i j). destruct (Nat.eqb j i); [reflexivity|]. now destruct (_ && _)%bool.
  - unfold l. clear. induction ps as [|[[x free] err] ps IH]; [reflexivity|]. cbn [filter over]. destruct free; cbn [andb].
    + destruct (Req_EM_T err 0) as [-> | N]; cbn [negb]; [|cbn [over fst snd]; now rewrite IH]. rewrite IH. destruct (_ && _)%bool; ring.
    + rewrite IH. ring.
Qed.
