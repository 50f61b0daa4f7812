(** C47. *)
From Coq Require Import Reals List Lia Permutation Lra.
From Verif.Common Require Import Prelude.
From Verif.Phsp Require Import Model Spec Proofs.
From Verif.Chain Require Import Model Spec Kinematics Layout Fill Propose Main.
Import ListNotations.
Local Open Scope nat_scope.

Section C47.
  Variable swaps : particle -> particle -> bool.
  Variable renamed : attrs -> attrs.
  Variable nonres : attrs.
  Variable p : particle.
  Notation N := (List.length (finals p)).
  Variable fuel : nat.
  Hypothesis C : chain p.
  Hypothesis F : N <= fuel.
  Variable u : nat -> R.
  Hypothesis U : uniform u.
  Notation construct := (construct swaps renamed nonres fuel p).
  Notation propose ns := (proposal N (mass_of p) u ns).

  Lemma built_Ok ns maxw : construct = Ok (ns, maxw) -> exists prod t, built swaps renamed nonres p ns prod t /\ rsqrt prod = Some maxw.
  Proof.
    intros E. destruct (construct_plain swaps renamed nonres p fuel C F) as (ns' & prod & t & B & E'). rewrite E in E'.
    destruct (rsqrt prod) as [w|] eqn:Er; [|discriminate]. injection E' as -> ->. eauto.
  Qed.

  Lemma safe_lemma : construct = Throw \/ exists ns maxw, construct = Ok (ns, maxw) /\ List.length ns = N - 1 /\
    (propose ns = Throw \/ exists st wt k, propose ns = Ok (st, wt, k)).
  Proof.
    destruct (construct_plain swaps renamed nonres p fuel C F) as (ns & prod & t & B & E). rewrite E.
    destruct (rsqrt prod) as [w|]; [right|left; reflexivity]. exists ns, w. split; [reflexivity|]. split; [apply B|].
    destruct (proposal_ok swaps renamed nonres p ns prod t u C U B) as [H|(st & w' & k & H & _)]; eauto.
  Qed.

  Lemma state_lemma ns maxw st wt k k0 : construct = Ok (ns, maxw) -> propose ns = Ok (st, wt, k) -> (0 < wt)%R ->
    exists ev k', fill_from_state N (mass_of p) u st ns k0 = Ok (ev, k')
      /\ (exists s, st N = Some s /\ system ev (seq 0 N) = (0, 0, 0, sqrt s)%R)
      /\ (forall j, j < N -> on_shell (mass_of p j) (ev j))
      /\ (forall a ds, part (Decay a ds) p -> exists i n, nth_error ns i = Some n /\ Permutation (lfs n ++ rfs n) (map fst (finals (Decay a ds)))
            /\ st (i + N) = Some (mass2 (system ev (map fst (finals (Decay a ds))))))
      /\ gen_pdf ev ns = fold_left Rmult (map (fun '(i, n) => density n (match st (i + N) with Some s => s | None => 0%R end)) (combine (seq 0 (N - 1)) ns)) 1%R.
  Proof.
    intros E P W. destruct (built_Ok ns maxw E) as (prod & t & B & _).
    destruct (proposal_ok swaps renamed nonres p ns prod t u C U B) as [H|(st' & w & k' & H & _ & W0 & Sd & _)]; [congruence|].
    assert (st' = st) by congruence. assert (sqrt w = wt) by congruence. subst st' wt.
    assert (Hw : (0 < w)%R) by (destruct (Rle_lt_or_eq_dec 0 w W0) as [|<-]; auto; rewrite sqrt_0 in W; lra).
    destruct (filled swaps renamed nonres p ns prod t u st k0 C U B (Sd Hw)) as (ev & k2 & Ef & T & Sh & M).
    exists ev, k2. split; [exact Ef|]. split; [exact T|]. split; [exact Sh|]. split.
    - intros a ds Hp. destruct (b_parts _ _ _ _ _ _ _ B a ds Hp) as (i & n & a' & x & y & l & r & En & Pm & _). exists i, n.
      split; auto. split; auto. rewrite (M i n En), inv_mass_system. rewrite (system_perm ev _ _ Pm). reflexivity.
    - unfold gen_pdf. rewrite <- (b_len _ _ _ _ _ _ _ B). 
      assert (G : forall l i x, (forall j n, nth_error l j = Some n -> st (i + j + N) = Some (inv_mass ev (lfs n) (rfs n))) ->
        fold_left (fun g n => (g * density n (inv_mass ev (lfs n) (rfs n)))%R) l x
        = fold_left Rmult (map (fun '(i, n) => density n (match st (i + N) with Some s => s | None => 0%R end)) (combine (seq i (List.length l)) l)) x).
      { clear. induction l as [|n l IH]; intros i x H; [reflexivity|]. cbn [List.length seq combine map fold_left].
        rewrite <- (IH (S i)).
        - pose proof (H 0 n eq_refl) as E. rewrite Nat.add_0_r in E. rewrite E. reflexivity.
        - intros j n0 E. replace (S i + j) with (i + S j) by lia. apply H; auto. }
      apply G. intros j n En. apply M; auto.
  Qed.

  Hypothesis Wr : forall a, well a -> well (renamed a).
  Hypothesis Wn : well nonres.
  Hypothesis Wp : resonances p.
  Hypothesis A : allowed p.

  Lemma built_prepared ns maxw : construct = Ok (ns, maxw) -> exists prod t, built swaps renamed nonres p ns prod t /\ rsqrt prod = Some maxw
    /\ forall j n, nth_error ns j = Some n -> prepared j n.
  Proof.
    intros E. destruct (construct_prepared swaps renamed nonres Wr Wn p fuel C Wp A F) as (ns' & prod & t & B & Pr & E'). rewrite E in E'.
    destruct (rsqrt prod) as [w|] eqn:Er; [|discriminate]. injection E' as -> ->. eauto 6.
  Qed.

  Lemma weight_lemma ns maxw st wt k : construct = Ok (ns, maxw) -> propose ns = Ok (st, wt, k) -> (0 <= wt <= maxw)%R.
  Proof.
    intros E P. destruct (built_prepared ns maxw E) as (prod & t & B & Er & Pr). destruct (rsqrt_Ok _ _ Er) as [Pp ->].
    destruct (proposal_ok swaps renamed nonres p ns prod t u C U B) as [H|(st' & w & k' & H & _ & W0 & _ & Bd)]; [congruence|].
    assert (sqrt w = wt) by congruence. subst wt. split; [apply sqrt_pos|]. apply sqrt_le_1; auto.
    destruct (Rle_lt_or_eq_dec 0 w W0) as [Hw|<-]; auto.
  Qed.

  Lemma sampling_lemma ns maxw st wt k : construct = Ok (ns, maxw) -> propose ns = Ok (st, wt, k) ->
    forall i n, nth_error ns i = Some n -> exists s j, st (i + N) = Some s /\ (lo n <= s <= hi n)%R
      /\ (ty n <> QuasiStable -> (lo n < hi n)%R -> cdf n s = u j /\ cdf n (lo n) = 0%R /\ cdf n (hi n) = 1%R /\ forall x, derivable_pt_lim (cdf n) x (density n x)).
  Proof.
    intros E P i n En. destruct (built_prepared ns maxw E) as (prod & t & B & Er & Pr).
    destruct (proposal_ok swaps renamed nonres p ns prod t u C U B) as [H|(st' & w & k' & H & [_ W] & _)]; [congruence|].
    assert (st' = st) by congruence. subst st'. destruct (W i n ltac:(lia) En) as (s & j & Es & Sm). destruct (Pr i n En) as [Su _].
    pose proof (U j) as Uj. exists s, j. split; auto. split; [apply (sample_range n (u j)); auto; lra|].
    intros NQ LH. split; [apply sample_cdf; auto; lra|]. split; [|split].
    - unfold cdf. unfold set_up in Su. destruct (ty n); [|unfold Rdiv; ring|congruence]. destruct Su as (_ & _ & -> & _). unfold Rdiv; ring.
    - unfold cdf. unfold set_up in Su. destruct (ty n); [|field; lra|congruence]. destruct Su as (G & _ & El & Eh). rewrite <- Eh. field.
      assert (plo n < phi n)%R; [|lra]. rewrite El, Eh. apply atan_increasing. apply Rmult_lt_compat_r; [apply Rinv_0_lt_compat; auto|lra].
    - intros x. apply cdf_density; auto.
  Qed.

  Lemma quasi_lemma ns maxw st wt k k0 ev k' a d1 d2 : construct = Ok (ns, maxw) -> propose ns = Ok (st, wt, k) -> (0 < wt)%R ->
    fill_from_state N (mass_of p) u st ns k0 = Ok (ev, k') -> part (Decay a [d1; d2]) p -> quasi a = true ->
    mass2 (system ev (map fst (finals (Decay a [d1; d2])))) = (amass a * amass a)%R.
  Proof.
    intros E P W Ef Hp Q. destruct (built_prepared ns maxw E) as (prod & t & B & Er & Pr).
    destruct (proposal_ok swaps renamed nonres p ns prod t u C U B) as [H|(st' & w & k2 & H & [_ Wr2] & W0 & Sd & _)]; [congruence|].
    assert (st' = st) by congruence. assert (sqrt w = wt) by congruence. subst st' wt.
    assert (Hw : (0 < w)%R) by (destruct (Rle_lt_or_eq_dec 0 w W0) as [|<-]; auto; rewrite sqrt_0 in W; lra).
    destruct (filled swaps renamed nonres p ns prod t u st k0 C U B (Sd Hw)) as (ev' & k3 & Ef' & _ & _ & M).
    assert (ev' = ev) by congruence. subst ev'.
    destruct (b_parts _ _ _ _ _ _ _ B a _ Hp) as (i & n & a' & x & y & l & r & En & Pm & Eb & Enn). cbn [binary] in Eb. injection Eb as <- <- <-.
    destruct (Wr2 i n ltac:(lia) En) as (s & j & Es & Sm). rewrite (M i n En), inv_mass_system, (system_perm ev _ _ Pm) in Es. assert (Es' : mass2 (system ev (map fst (finals (Decay a [d1; d2])))) = s) by congruence. rewrite Es'.
    rewrite Enn in Sm. unfold sample, node_for, node_set in Sm. rewrite Q in Sm. rewrite Bool.orb_true_r in Sm. cbn in Sm. injection Sm as <-. ring.
  Qed.
End C47.

(** For every decay chain, the constructor gives the nodes or finds a negative maximal weight (the chain is kinematically forbidden), and a proposal
    is made or a tangent does not exist: no node is read before it is written, and no index is out of range. *)
Theorem C47_safe swaps renamed nonres p fuel u : chain p -> List.length (finals p) <= fuel -> uniform u ->
  construct swaps renamed nonres fuel p = Throw \/
  exists ns maxw, construct swaps renamed nonres fuel p = Ok (ns, maxw) /\ List.length ns = List.length (finals p) - 1 /\
    (proposal (List.length (finals p)) (mass_of p) u ns = Throw \/ exists st wt k, proposal (List.length (finals p)) (mass_of p) u ns = Ok (st, wt, k)).
Proof. intros C F U. exact (safe_lemma swaps renamed nonres p fuel C F u U). Qed.
Print Assumptions C47_safe.

(** The event filled from a proposal of positive weight: its total momentum is zero, its particles are on shell, and every decay of the chain has
    the invariant mass proposed for it. The density given to the event is that of the proposed masses. *)
Theorem C47_state swaps renamed nonres p fuel u ns maxw st wt k k0 : chain p -> List.length (finals p) <= fuel -> uniform u ->
  construct swaps renamed nonres fuel p = Ok (ns, maxw) -> proposal (List.length (finals p)) (mass_of p) u ns = Ok (st, wt, k) -> (0 < wt)%R ->
  let N := List.length (finals p) in
  exists ev k', fill_from_state N (mass_of p) u st ns k0 = Ok (ev, k')
    /\ (exists s, st N = Some s /\ system ev (seq 0 N) = (0, 0, 0, sqrt s)%R)
    /\ (forall j, j < N -> on_shell (mass_of p j) (ev j))
    /\ (forall a ds, part (Decay a ds) p -> exists i n, nth_error ns i = Some n /\ Permutation (lfs n ++ rfs n) (map fst (finals (Decay a ds)))
          /\ st (i + N) = Some (mass2 (system ev (map fst (finals (Decay a ds))))))
    /\ gen_pdf ev ns = fold_left Rmult (map (fun '(i, n) => density n (match st (i + N) with Some s => s | None => 0%R end)) (combine (seq 0 (N - 1)) ns)) 1%R.
Proof. intros C F U E P W. exact (state_lemma swaps renamed nonres p fuel C F u U ns maxw st wt k k0 E P W). Qed.
Print Assumptions C47_state.

(** A quasi-stable particle with two daughters has exactly its mass in the event. *)
Theorem C47_quasi_stable swaps renamed nonres p fuel u ns maxw st wt k k0 ev k' a d1 d2 : chain p -> List.length (finals p) <= fuel -> uniform u ->
  (forall a, well a -> well (renamed a)) -> well nonres -> resonances p -> allowed p ->
  construct swaps renamed nonres fuel p = Ok (ns, maxw) -> proposal (List.length (finals p)) (mass_of p) u ns = Ok (st, wt, k) -> (0 < wt)%R ->
  fill_from_state (List.length (finals p)) (mass_of p) u st ns k0 = Ok (ev, k') -> part (Decay a [d1; d2]) p -> quasi a = true ->
  mass2 (system ev (map fst (finals (Decay a [d1; d2])))) = (amass a * amass a)%R.
Proof. intros C F U Wr Wn Wp A. exact (quasi_lemma swaps renamed nonres p fuel C F u U Wr Wn Wp A ns maxw st wt k k0 ev k' a d1 d2). Qed.
Print Assumptions C47_quasi_stable.

(** The weight of a proposal never exceeds the maximal weight of its own chain. *)
Theorem C47_weight swaps renamed nonres p fuel u ns maxw st wt k : chain p -> List.length (finals p) <= fuel -> uniform u ->
  (forall a, well a -> well (renamed a)) -> well nonres -> resonances p -> allowed p ->
  construct swaps renamed nonres fuel p = Ok (ns, maxw) -> proposal (List.length (finals p)) (mass_of p) u ns = Ok (st, wt, k) ->
  (0 <= wt <= maxw)%R.
Proof. intros C F U Wr Wn Wp A. exact (weight_lemma swaps renamed nonres p fuel C F u U Wr Wn Wp A ns maxw st wt k). Qed.
Print Assumptions C47_weight.

(** The mass proposed for a node lies in its range and is the inverse of a distribution function, whose derivative is the density of the node. *)
Theorem C47_sampling swaps renamed nonres p fuel u ns maxw st wt k : chain p -> List.length (finals p) <= fuel -> uniform u ->
  (forall a, well a -> well (renamed a)) -> well nonres -> resonances p -> allowed p ->
  construct swaps renamed nonres fuel p = Ok (ns, maxw) -> proposal (List.length (finals p)) (mass_of p) u ns = Ok (st, wt, k) ->
  forall i n, nth_error ns i = Some n -> exists s j, st (i + List.length (finals p)) = Some s /\ (lo n <= s <= hi n)%R
    /\ (ty n <> QuasiStable -> (lo n < hi n)%R -> cdf n s = u j /\ cdf n (lo n) = 0%R /\ cdf n (hi n) = 1%R /\ forall x, derivable_pt_lim (cdf n) x (density n x)).
Proof. intros C F U Wr Wn Wp A. exact (sampling_lemma swaps renamed nonres p fuel C F u U Wr Wn Wp A ns maxw st wt k). Qed.
Print Assumptions C47_sampling.

(** The boost keeps invariant masses and takes a system at rest to the momentum p along n. *)
Theorem C47_boost (nx ny nz p s : R) (q : quad) : (nx * nx + ny * ny + nz * nz = 1)%R -> (0 < s)%R -> (0 <= p)%R ->
  let b q := boost q nx ny nz (sqrt (1 + p * p / s)) (p / sqrt s) in
  mass2 (b q) = mass2 q /\ b (0, 0, 0, sqrt s)%R = (p * nx, p * ny, p * nz, sqrt (s + p * p))%R.
Proof.
  intros Nn S0 P b. destruct (boost_rest s p nx ny nz S0 P) as (Eb & G & _ & _). split; [apply boost_mass; auto|exact Eb].
Qed.
Print Assumptions C47_boost.

(** With a single chain, a proposal is accepted for exactly the fraction of uniform numbers given by its weight. *)
Theorem C47_accept_partial maxw w v : (0 < maxw)%R -> (0 <= w <= maxw)%R -> (0 < v < 1)%R ->
  exists c, ceiling [maxw] = Ok c /\ (0 <= w / c <= 1)%R /\ (accepts c w v = true <-> (v <= w / c)%R).
Proof.
  intros M W V. exists maxw. split; [reflexivity|].
  assert (Q : (w = w / maxw * maxw)%R) by (field; lra). set (f := (w / maxw)%R) in *. split; [nra|].
  unfold accepts. destruct (rlt w (v * maxw)) eqn:E; cbn [negb].
  - apply rlt_true in E. split; [discriminate|]. intros H. exfalso. nra.
  - apply rlt_false in E. split; auto. intros _. nra.
Qed.
Print Assumptions C47_accept_partial.

(** TreePhaseSpace takes the smallest of the maximal weights of its chains as ceiling: std::max_element is called with the comparison a > b. Proposals of
    the other chains are accepted whenever their weight is above that ceiling, so events are not distributed as genPdf says. *)
Theorem C47_ceiling_refuted : exists ws c w, ceiling ws = Ok c /\ In w ws /\ (c < w)%R /\ forall v, (0 < v < 1)%R -> accepts c w v = true /\ accepts c ((c + w) / 2) v = true.
Proof.
  exists [1; 2]%R, 1%R, 2%R. split.
  - unfold ceiling, max_element. cbn [fold_left]. destruct (rlt 2 1) eqn:E; [apply rlt_true in E; lra|]. reflexivity.
  - split; [cbn; auto|]. split; [lra|]. intros v V. unfold accepts. split.
    + destruct (rlt 2 (v * 1)) eqn:E; [apply rlt_true in E; lra|reflexivity].
    + destruct (rlt _ (v * 1)) eqn:E; [apply rlt_true in E; lra|reflexivity].
Qed.
Print Assumptions C47_ceiling_refuted.

(** It is the minimum for any list. *)
Theorem C47_ceiling_is_minimum ws c : ceiling ws = Ok c -> In c ws /\ forall w, In w ws -> (c <= w)%R.
Proof.
  unfold ceiling, max_element. destruct ws as [|x ws]; [discriminate|]. intros E. injection E as <-. revert x.
  induction ws as [|y ws IH]; intros x; cbn [fold_left].
  - split; [cbn; auto|]. intros w [->|[]]. lra.
  - destruct (rlt y x) eqn:L.
    + apply rlt_true in L. destruct (IH y) as [I M]. split; [cbn in *; tauto|]. intros w [->|[->|H]].
      * specialize (M y (or_introl eq_refl)). lra.
      * apply M; cbn; auto.
      * apply M; cbn; auto.
    + apply rlt_false in L. destruct (IH x) as [I M]. split; [cbn in *; tauto|]. intros w [->|[->|H]].
      * apply M; cbn; auto.
      * specialize (M x (or_introl eq_refl)). lra.
      * apply M; cbn; auto.
Qed.
Print Assumptions C47_ceiling_is_minimum.

(** A generator made from one chain without a random number generator uses the global one. *)
Theorem C47_random {G} (global : G) (rndm : option G) : draw (rand_of_chain global rndm) = Ok (match rndm with Some r => r | None => global end).
Proof. destruct rndm; reflexivity. Qed.
Print Assumptions C47_random.

(** A generator made from a vector of chains without a random number generator has a null pointer for it: its constructor chooses gRandom and then calls
    setRandom with the argument. The first makeEvent dereferences it. *)
Theorem C47_random_refuted {G} (global : G) : exists rndm, draw (rand_of_chains global rndm) = UB.
Proof. exists None. reflexivity. Qed.
Print Assumptions C47_random_refuted.

(** *** A chain: a quasi-stable particle of mass 3 to a flat pair of particles 0 and 1, and particle 2. *)
Definition ex_pair : particle := Decay (Attrs false true 1 0) [Stable 0 (1 / 2); Stable 1 (1 / 2)].
Definition ex_p : particle := Decay (Attrs true false 3 0) [ex_pair; Stable 2 (1 / 2)].
Definition ex_construct : res (list node * R) := construct (fun _ _ => false) (fun a => a) (Attrs false true 0 0) 3 ex_p.

Example C47_chain_ex : chain ex_p /\ resonances ex_p /\ allowed ex_p /\ well (Attrs false true 0 0) /\ uniform (fun _ => 1 / 2)%R.
Proof.
  split; [|split; [|split; [|split]]].
  - unfold chain, indexed. cbn. repeat split; try lra; try lia; repeat (apply Forall_cons || apply NoDup_cons); cbn; try lia; auto using NoDup_nil.
  - intros a ds P. inversion P as [|? d ? I Pd]; subst; [unfold well; cbn; repeat split; try lra; discriminate|].
    destruct I as [<-|[<-|[]]]; [|inversion Pd].
    inversion Pd as [|? d ? I Pd']; subst; [unfold well; cbn; repeat split; try lra; discriminate|]. destruct I as [<-|[<-|[]]]; inversion Pd'.
  - unfold allowed. cbn. lra.
  - unfold well; cbn; repeat split; try lra; discriminate.
  - intros k. lra.
Qed.

Lemma ex_sqrt : (sqrt (29 / 8 * (1 / 4)) < 1)%R /\ sqrt (1 / 4 * (1 / 4)) = (1 / 4)%R.
Proof.
  split; [rewrite <- sqrt_1 at 2; apply sqrt_lt_1; lra|]. apply sqrt_square. lra.
Qed.

Lemma ex_step s sl sr w : (0 <= sl)%R -> (0 <= sr)%R -> (sl + sr + 2 * sqrt (sl * sr) < s)%R -> (0 < w)%R ->
  (0 < (if rlt (rho_2 s sl sr * (if rlt (sl + sr + 2 * sqrt (sl * sr)) s then 1 else 0)) 0 then 0
        else rho_2 s sl sr * (if rlt (sl + sr + 2 * sqrt (sl * sr)) s then 1 else 0) * w))%R.
Proof.
  intros A B T W. destruct (rho_mono s s sl sl sr sr) as [P _]; try lra.
  destruct (rlt (sl + sr + 2 * sqrt (sl * sr)) s) eqn:E; [|apply rlt_false in E; lra].
  destruct (rlt _ 0) eqn:E'; [apply rlt_true in E'; lra|]. nra.
Qed.

Example C47_state_ex : exists ns maxw st wt k, ex_construct = Ok (ns, maxw) /\ proposal 3 (mass_of ex_p) (fun _ => 1 / 2)%R ns = Ok (st, wt, k) /\ (0 < wt)%R
  /\ st 3 = Some 9%R /\ st 4 = Some (29 / 8)%R.
Proof.
  unfold ex_construct, construct. cbn -[rho_2 rsqrt Rmult Rplus Rminus Rdiv sqrt IZR Rinv].
  match goal with |- context [rsqrt ?x] => assert (Q : (0 < x)%R) end.
  { unfold rho_2. lra. }
  unfold rsqrt. destruct (rlt _ 0) eqn:E; [apply rlt_true in E; lra|]. eexists _, _. 
  unfold proposal. cbn -[rho_2 Rmult Rplus Rminus Rdiv sqrt IZR Rinv rlt].
  eexists _, _, _. split; [reflexivity|]. split; [reflexivity|].
  cbn -[rho_2 Rmult Rplus Rminus Rdiv sqrt IZR Rinv rlt]. destruct ex_sqrt as [S1 S2]. split; [|split; [f_equal; lra|f_equal; lra]].
  apply sqrt_lt_R0. apply ex_step; try lra.
  - match goal with |- (_ + _ + 2 * sqrt ?x < _)%R => replace x with (29 / 8 * (1 / 4))%R by lra end. lra.
  - apply ex_step; try lra. match goal with |- (_ + _ + 2 * sqrt ?x < _)%R => replace x with (1 / 4 * (1 / 4))%R by lra end. lra.
Qed.

Example C47_quasi_ex : part (Decay (Attrs true false 3 0) [ex_pair; Stable 2 (1 / 2)]) ex_p /\ part ex_pair ex_p.
Proof. split; [constructor|]. eapply part_in; [left; reflexivity|]. constructor. Qed.

Example C47_accept_ex : exists c, ceiling [2]%R = Ok c /\ accepts c 1 (1 / 4) = true /\ accepts c 1 (3 / 4) = false.
Proof.
  exists 2%R. split; [reflexivity|]. unfold accepts. split.
  - destruct (rlt 1 (1 / 4 * 2)) eqn:E; [apply rlt_true in E; lra|reflexivity].
  - destruct (rlt 1 (3 / 4 * 2)) eqn:E; [reflexivity|apply rlt_false in E; lra].
Qed.

(** A Breit-Wigner node of mass and width 1 on [0, 2] gives 1 for the uniform number 1/2. *)
Example C47_sampling_ex : let n := node_set (Attrs false false 1 1) 0 1 0 2 in set_up n /\ ty n = BW /\ sample n (1 / 2) = Some 1%R.
Proof.
  cbn -[atan Rmult Rplus Rminus Rdiv IZR]. split; [|split; [reflexivity|]].
  - unfold set_up. cbn -[atan Rmult Rplus Rminus Rdiv IZR]. repeat split; lra.
  - unfold sample. cbn -[atan Rmult Rplus Rminus Rdiv IZR tan cos].
    assert (D : ((atan ((2 - 1 * 1) / (1 * 1)) - atan ((0 - 1 * 1) / (1 * 1))) * (1 / 2) = PI / 4)%R).
    { replace ((2 - 1 * 1) / (1 * 1))%R with 1%R by field. replace ((0 - 1 * 1) / (1 * 1))%R with (- (1))%R by field.
      rewrite atan_opp, atan_1. field. }
    rewrite D, tan_PI4. destruct (Req_EM_T (cos (PI / 4)) 0) as [Z|_].
    { exfalso. pose proof PI_RGT_0. assert (0 < cos (PI / 4))%R by (apply cos_gt_0; lra). lra. }
    destruct (Req_EM_T _ 0); [lra|]. f_equal. field.
Qed.
