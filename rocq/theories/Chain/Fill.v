(** The event filled from a state has the invariant masses of the state. *)
From Coq Require Import Reals List Lia Permutation Lra.
From Verif.Common Require Import Prelude.
From Verif.Phsp Require Import Model Spec Proofs.
From Verif.Chain Require Import Model Spec Kinematics Layout.
Import ListNotations.
Local Open Scope nat_scope.

Lemma NoDup_app_inv {A} (l m : list A) : NoDup (l ++ m) -> NoDup l /\ NoDup m /\ forall x, In x l -> In x m -> False.
Proof.
  induction l as [|a l IH]; cbn [app]; intros H; [repeat split; auto; constructor|].
  inversion H as [|? ? H1 H2]; subst. destruct (IH H2) as (A1 & A2 & A3). repeat split; auto.
  - constructor; auto. intros I; apply H1, in_app_iff; auto.
  - intros x [->|I] J; [apply H1, in_app_iff; auto|eauto].
Qed.

Lemma NoDup_app_intro {A} (l m : list A) : NoDup l -> NoDup m -> (forall x, In x l -> In x m -> False) -> NoDup (l ++ m).
Proof.
  induction 1 as [|a l H1 H2 IH]; cbn [app]; intros Hm D; auto. constructor.
  - rewrite in_app_iff. intros [I|I]; [auto|apply (D a); cbn; auto].
  - apply IH; auto. intros x I J. apply (D x); cbn; auto.
Qed.

Section Fill.
  Variable N : nat.
  Variable m0 : nat -> R.
  Variable u : nat -> R.
  Hypothesis U : uniform u.
  Variable ns : list node.

  Notation rep := (rep N ns).
  Notation ref := (ref N).
  Notation event := (nat -> quad).

  Lemma idx_node t : rep t -> forall k, In k (idxs t) -> exists n, nth_error ns k = Some n /\ lfs n <> [] /\ incl (lfs n ++ rfs n) (leaves t).
  Proof.
    induction t as [k0|i a IHa b IHb]; cbn [Layout.rep idxs leaves]; intros R k I; [destruct I|].
    destruct R as ((n & E & El & Er & Fl & Fr) & _ & _ & Ra & Rb). destruct I as [<-|I].
    - exists n. split; auto. split; [rewrite Fl; apply leaves_not_nil|]. rewrite Fl, Fr. intros x; auto.
    - apply in_app_iff in I. destruct I as [I|I].
      + destruct (IHa Ra k I) as (n' & E' & X & Y). exists n'. repeat split; auto. intros x J. apply in_app_iff; left; auto.
      + destruct (IHb Rb k I) as (n' & E' & X & Y). exists n'. repeat split; auto. intros x J. apply in_app_iff; right; auto.
  Qed.

  Lemma idx_above t : forall i, rep t -> above N i t -> forall k, In k (idxs t) -> i < k.
  Proof.
    induction t as [k0|j a IHa b IHb]; cbn [Layout.rep idxs above]; intros i R A k I; [destruct I|].
    destruct R as (_ & Aa & Ab & Ra & Rb). destruct I as [<-|I]; auto. apply in_app_iff in I. destruct I as [I|I].
    - specialize (IHa j Ra Aa k I). lia.
    - specialize (IHb j Rb Ab k I). lia.
  Qed.

  Lemma disjoint_idx a b : rep a -> rep b -> (forall x, In x (leaves a) -> In x (leaves b) -> False) -> forall k, In k (idxs a) -> In k (idxs b) -> False.
  Proof.
    intros Ra Rb D k Ia Ib. destruct (idx_node a Ra k Ia) as (n & E & Ne & Inc). destruct (idx_node b Rb k Ib) as (n' & E' & _ & Inc').
    assert (n' = n) by congruence. subst n'. destruct (lfs n) as [|x l] eqn:F; [congruence|].
    apply (D x); [apply Inc|apply Inc']; rewrite ?F; cbn; auto.
  Qed.

  Lemma idxs_nodup t : rep t -> NoDup (leaves t) -> NoDup (idxs t).
  Proof.
    induction t as [k0|i a IHa b IHb]; cbn [Layout.rep idxs leaves]; intros R ND; [constructor|].
    destruct R as (_ & Aa & Ab & Ra & Rb). destruct (NoDup_app_inv _ _ ND) as (Na & Nb & D). constructor.
    - rewrite in_app_iff. intros [I|I]; [apply (idx_above a i Ra Aa) in I|apply (idx_above b i Rb Ab) in I]; lia.
    - apply NoDup_app_intro; auto. apply (disjoint_idx a b Ra Rb D).
  Qed.

  Lemma idxs_length t : S (List.length (idxs t)) = List.length (leaves t).
  Proof. induction t as [k0|i a IHa b IHb]; cbn [idxs leaves List.length]; [reflexivity|]. rewrite !app_length. lia. Qed.

  Lemma idxs_bound t : rep t -> forall k, In k (idxs t) -> k < List.length ns.
  Proof. intros R k I. destruct (idx_node t R k I) as (n & E & _). apply nth_error_Some. congruence. Qed.

  Lemma idxs_all t : rep t -> NoDup (leaves t) -> List.length ns = List.length (leaves t) - 1 -> forall k, k < List.length ns -> In k (idxs t).
  Proof.
    intros R ND Le k K. pose proof (idxs_length t) as Li.
    assert (I : incl (seq 0 (List.length ns)) (idxs t)).
    { apply NoDup_length_incl; [apply idxs_nodup; auto|rewrite seq_length; lia|].
      intros x I. apply in_seq. pose proof (idxs_bound t R x I). lia. }
    apply I, in_seq. lia.
  Qed.

  (** *** States *)
  Variable st : nat -> option R.

  Fixpoint sound (t : dt) : Prop :=
    match t with
    | L k => (st k = Some (m0 k * m0 k) /\ 0 <= m0 k)%R
    | B i a b => (exists s sl sr, st (i + N) = Some s /\ st (ref a) = Some sl /\ st (ref b) = Some sr /\ (sl + sr + 2 * sqrt (sl * sr) < s)%R) /\ sound a /\ sound b
    end.

  Lemma sound_nonneg t s : sound t -> st (ref t) = Some s -> (0 <= s)%R.
  Proof.
    revert s. induction t as [k|i a IHa b IHb]; cbn [sound Layout.ref]; intros s H E.
    - destruct H as [H _]. assert (s = m0 k * m0 k)%R by congruence. nra.
    - destruct H as ((s' & sl & sr & Es & El & Er & T) & Sa & Sb). assert (s' = s) by congruence. subst s'.
      specialize (IHa sl Sa El). specialize (IHb sr Sb Er). pose proof (sqrt_pos (sl * sr)). lra.
  Qed.

  Fixpoint right_masses (ev : event) (t : dt) : Prop :=
    match t with
    | L k => on_shell (m0 k) (ev k)
    | B i a b => st (i + N) = Some (mass2 (system ev (leaves a ++ leaves b))) /\ right_masses ev a /\ right_masses ev b
    end.

  Lemma system_app ev l m : system ev (l ++ m) = plus4 (system ev l) (system ev m).
  Proof. unfold system. rewrite map_app. apply total_app. Qed.

  Lemma system_ext ev ev' l : (forall k, In k l -> ev' k = ev k) -> system ev' l = system ev l.
  Proof. intros H. unfold system. f_equal. apply map_ext_in. auto. Qed.

  Lemma masses_ext ev ev' t : (forall k, In k (leaves t) -> ev' k = ev k) -> right_masses ev t -> right_masses ev' t.
  Proof.
    induction t as [k|i a IHa b IHb]; cbn [right_masses leaves]; intros H M.
    - rewrite H by (cbn; auto). exact M.
    - destruct M as (Ms & Ma & Mb). rewrite (system_ext ev ev') by exact H. split; auto.
      split; [apply IHa|apply IHb]; auto; intros k I; apply H, in_app_iff; auto.
  Qed.

  Lemma masses_boost ev ev' t nx ny nz g vg : (nx * nx + ny * ny + nz * nz = 1)%R -> (g * g - vg * vg = 1)%R -> (0 <= g)%R -> (0 <= vg)%R ->
    (forall k, In k (leaves t) -> ev' k = boost (ev k) nx ny nz g vg) -> right_masses ev t -> right_masses ev' t.
  Proof.
    intros Nn G G0 V0. induction t as [k|i a IHa b IHb]; cbn [right_masses leaves]; intros H M.
    - rewrite H by (cbn; auto). destruct M as [M E]. split; [rewrite boost_mass; auto|]. apply boost_energy; auto. rewrite M. apply Rle_0_sqr.
    - destruct M as (Ms & Ma & Mb).
      assert (Es : system ev' (leaves a ++ leaves b) = boost (system ev (leaves a ++ leaves b)) nx ny nz g vg).
      { unfold system. rewrite <- total_boost, map_map. f_equal. apply map_ext_in. exact H. }
      rewrite Es, boost_mass by auto. split; auto. split; [apply IHa|apply IHb]; auto; intros k I; apply H, in_app_iff; auto.
  Qed.

  Lemma boosts_spec l : forall ev nx ny nz g vg k, NoDup l ->
    (In k l -> boosts ev l nx ny nz g vg k = boost (ev k) nx ny nz g vg) /\ (~ In k l -> boosts ev l nx ny nz g vg k = ev k).
  Proof.
    induction l as [|x l IH]; intros ev nx ny nz g vg k ND; cbn [boosts]; [split; [intros []|auto]|].
    inversion ND as [|? ? Nx Nl]; subst. destruct (IH (put ev x (boost (ev x) nx ny nz g vg)) nx ny nz g vg k Nl) as [A B].
    unfold put in A, B. split.
    - intros [->|I].
      + unfold put. rewrite B by auto. rewrite Nat.eqb_refl. reflexivity.
      + unfold put. rewrite A by auto. destruct (Nat.eqb_spec k x) as [->|]; [contradiction|reflexivity].
    - intros NI. unfold put. rewrite B by (intros I; apply NI; cbn; auto). destruct (Nat.eqb_spec k x) as [->|]; auto. exfalso; apply NI; cbn; auto.
  Qed.

  Definition rested (ev : event) (t : dt) : Prop :=
    match t with L _ => True | B i _ _ => exists s, st (i + N) = Some s /\ at_rest s (system ev (leaves t)) end.
  Definition placed (ev : event) (t : dt) : Prop := match t with L _ => True | B _ _ _ => right_masses ev t end.

  Lemma side_ok ev t nx ny nz p s : (nx * nx + ny * ny + nz * nz = 1)%R -> (0 <= p)%R -> sound t -> st (ref t) = Some s -> NoDup (leaves t) ->
    rested ev t -> placed ev t ->
    system (side ev (leaves t) nx ny nz p s) (leaves t) = (p * nx, p * ny, p * nz, sqrt (s + p * p))%R
    /\ right_masses (side ev (leaves t) nx ny nz p s) t /\ (forall k, ~ In k (leaves t) -> side ev (leaves t) nx ny nz p s k = ev k).
  Proof.
    intros Nn P Sd Es ND Rs Pl. destruct t as [k|i a b].
    - cbn [sound Layout.ref] in Sd, Es. destruct Sd as [Sk M0]. assert (s = m0 k * m0 k)%R by congruence. subst s.
      cbn [leaves side right_masses]. unfold put. split; [|split].
      + unfold system. cbn [map total fold_right]. rewrite Nat.eqb_refl. apply plus4_0_r.
      + rewrite Nat.eqb_refl. split; [|apply sqrt_pos]. unfold mass2. rewrite sqrt_sqrt by nra.
        replace (p * nx * (p * nx) + p * ny * (p * ny) + p * nz * (p * nz))%R with (p * p * (nx * nx + ny * ny + nz * nz))%R by ring. rewrite Nn. ring.
      + intros j J. destruct (Nat.eqb_spec j k) as [->|]; auto. exfalso; apply J; cbn; auto.
    - cbn [rested placed Layout.ref] in *. destruct Rs as (s' & Es' & Rs). assert (s' = s) by congruence. subst s'.
      assert (S0 : (0 < s)%R).
      { cbn [sound] in Sd. destruct Sd as ((s' & sl & sr & E1 & El & Er & T) & Sa & Sb). assert (s' = s) by congruence. subst s'.
        pose proof (sound_nonneg a sl Sa El). pose proof (sound_nonneg b sr Sb Er). pose proof (sqrt_pos (sl * sr)). lra. }
      destruct (boost_rest s p nx ny nz S0 P) as (Eb & G & G0 & V0).
      assert (Esd : side ev (leaves (B i a b)) nx ny nz p s = boosts ev (leaves (B i a b)) nx ny nz (sqrt (1 + p * p / s)) (p / sqrt s)).
      { unfold side. cbn [leaves] in *. destruct (leaves a ++ leaves b) as [|x [|y l]] eqn:E; auto. exfalso.
        assert (List.length (leaves a ++ leaves b) = 1) by (rewrite E; reflexivity). rewrite app_length in H.
        pose proof (idxs_length a). pose proof (idxs_length b). lia. }
      rewrite Esd. pose proof (fun k => boosts_spec (leaves (B i a b)) ev nx ny nz (sqrt (1 + p * p / s)) (p / sqrt s) k ND) as Bs.
      split; [|split].
      + rewrite <- Eb. unfold at_rest in Rs. rewrite <- Rs. unfold system. rewrite <- total_boost, map_map. f_equal. apply map_ext_in. intros k I. apply Bs; auto.
      + eapply masses_boost; eauto. intros k I. apply Bs; auto.
      + intros k K. apply Bs; auto.
  Qed.

  (** *** The loop *)
  Fixpoint done (ev : event) (k : nat) (t : dt) : Prop :=
    match t with
    | L _ => True
    | B i a b => if k <=? i then rested ev t /\ right_masses ev t else done ev k a /\ done ev k b
    end.

  Lemma done_ext ev ev' k t : (forall j, In j (leaves t) -> ev' j = ev j) -> done ev k t -> done ev' k t.
  Proof.
    induction t as [k0|i a IHa b IHb]; cbn [done]; intros H D; auto. destruct (k <=? i).
    - destruct D as [Rs M]. split; [|eapply masses_ext; eauto]. destruct Rs as (s & E & Rs). exists s. split; auto. rewrite (system_ext ev ev'); auto.
    - cbn [leaves] in H. split; [apply IHa|apply IHb]; try tauto; intros j J; apply H, in_app_iff; auto.
  Qed.

  Lemma done_children ev k t : above N k t -> rep t -> done ev (S k) t -> rested ev t /\ placed ev t.
  Proof.
    destruct t as [k0|i a b]; cbn [above done rested placed]; intros A R D; [auto|].
    destruct (Nat.leb_spec (S k) i); [exact D|lia].
  Qed.

  (** Node k. *)
  Definition visit (ev : event) (n : node) (nx ny nz p sl sr : R) : event :=
    side (side ev (lfs n) nx ny nz p sl) (rfs n) (- nx) (- ny) (- nz) p sr.

  Lemma visit_out ev t n nx ny nz p sl sr : (forall k, In k (lfs n ++ rfs n) -> ~ In k t) -> NoDup (lfs n ++ rfs n) ->
    forall k, In k t -> visit ev n nx ny nz p sl sr k = ev k.
  Proof.
    intros D ND k K. destruct (NoDup_app_inv _ _ ND) as (Nl & Nr & _). unfold visit.
    assert (Hl : ~ In k (lfs n)) by (intros I; apply (D k); auto; apply in_app_iff; auto).
    assert (Hr : ~ In k (rfs n)) by (intros I; apply (D k); auto; apply in_app_iff; auto).
    assert (X : forall ev l nx ny nz p s, NoDup l -> ~ In k l -> side ev l nx ny nz p s k = ev k).
    { clear. intros ev l nx ny nz p s ND NI. unfold side. destruct l as [|x [|y l]]; [reflexivity| |].
      - unfold put. destruct (Nat.eqb_spec k x) as [->|]; auto. exfalso; apply NI; cbn; auto.
      - apply boosts_spec; auto. }
    rewrite !X by auto. reflexivity.
  Qed.

  Lemma visit_done ev k n nx ny nz p : nth_error ns k = Some n -> (nx * nx + ny * ny + nz * nz = 1)%R ->
    forall sl sr s, st (nl n) = Some sl -> st (nr n) = Some sr -> st (k + N) = Some s -> p = (5 / 10 * sqrt (s * rho_2 s sl sr))%R ->
    NoDup (lfs n ++ rfs n) ->
    forall t, rep t -> sound t -> NoDup (leaves t) -> (In k (idxs t) \/ forall j, In j (lfs n ++ rfs n) -> ~ In j (leaves t)) ->
    done ev (S k) t -> done (visit ev n nx ny nz p sl sr) k t.
  Proof.
    intros En Nn sl sr s El Er Es Ep NDn. induction t as [k0|i a IHa b IHb]; intros R Sd ND HI D; [exact I|].
    assert (Out : (forall j, In j (lfs n ++ rfs n) -> ~ In j (leaves (B i a b))) -> done (visit ev n nx ny nz p sl sr) (S k) (B i a b)).
    { intros O. eapply done_ext; [|exact D]. apply visit_out; auto. }
    pose proof R as R0. cbn [Layout.rep] in R. destruct R as ((n' & En' & El' & Er' & Fl & Fr) & Aa & Ab & Ra & Rb).
    pose proof Sd as Sd0. cbn [sound] in Sd. destruct Sd as ((s' & sl' & sr' & Es' & Esl & Esr & T) & Sa & Sb).
    pose proof ND as ND0. cbn [leaves] in ND. destruct (NoDup_app_inv _ _ ND) as (Na & Nb & Dj).
    cbn [done] in D |- *. destruct (Nat.leb_spec k i) as [Ki|Ki].
    - destruct (Nat.eq_dec k i) as [->|Ne].
      + destruct (Nat.leb_spec (S i) i); [lia|]. destruct D as [Da Db].
        assert (n' = n) by congruence. subst n'. rewrite El' in El. rewrite Er' in Er.
        assert (sl' = sl) by congruence. assert (sr' = sr) by congruence. assert (s' = s) by congruence. subst sl' sr' s'.
        destruct (done_children ev i a Aa Ra Da) as [Rsa Pa]. destruct (done_children ev i b Ab Rb Db) as [Rsb Pb].
        pose proof (sound_nonneg a sl Sa El) as Hl. pose proof (sound_nonneg b sr Sb Er) as Hr.
        destruct (decay_energies s sl sr Hl Hr T) as [P0 Pe]. rewrite <- Ep in P0, Pe.
        destruct (above_threshold s sl sr Hl Hr T) as [S0 _].
        unfold visit. rewrite Fl, Fr.
        destruct (side_ok ev a nx ny nz p sl Nn P0 Sa El Na Rsa Pa) as (Sya & Ma & Oa).
        set (ev1 := side ev (leaves a) nx ny nz p sl) in *.
        assert (Same : forall j, In j (leaves b) -> ev1 j = ev j) by (intros j J; apply Oa; intros J'; apply (Dj j); auto).
        assert (Rsb' : rested ev1 b).
        { destruct b as [|j' b1 b2]; [exact I|]. destruct Rsb as (s' & E' & Rs'). exists s'. split; auto. rewrite (system_ext ev ev1); auto. }
        assert (Pb' : placed ev1 b) by (destruct b as [|j' b1 b2]; [exact I|]; eapply masses_ext; eauto).
        assert (Nn' : ((- nx) * (- nx) + (- ny) * (- ny) + (- nz) * (- nz) = 1)%R) by (rewrite <- Nn; ring).
        destruct (side_ok ev1 b (- nx) (- ny) (- nz) p sr Nn' P0 Sb Er Nb Rsb' Pb') as (Syb & Mb & Ob).
        set (ev2 := side ev1 (leaves b) (- nx) (- ny) (- nz) p sr) in *.
        assert (Same2 : forall j, In j (leaves a) -> ev2 j = ev1 j) by (intros j J; apply Ob; intros J'; apply (Dj j); auto).
        assert (Tot : system ev2 (leaves a ++ leaves b) = (0, 0, 0, sqrt s)%R).
        { rewrite system_app, (system_ext ev1 ev2) by auto. rewrite Sya, Syb. unfold plus4. apply quad_eq; try ring. exact Pe. }
        split.
        * cbn [rested leaves]. exists s. split; auto.
        * cbn [right_masses]. split.
          -- rewrite Tot. unfold mass2. rewrite sqrt_sqrt by lra. rewrite Es. f_equal. ring.
          -- split; auto. eapply masses_ext; [|exact Ma]. auto.
      + assert (Kn : ~ In k (idxs (B i a b))).
        { cbn [idxs]. intros [E|I]; [lia|]. apply in_app_iff in I. destruct I as [I|I].
          - apply (idx_above a i Ra Aa) in I. lia.
          - apply (idx_above b i Rb Ab) in I. lia. }
        destruct HI as [HI|HI]; [contradiction|]. specialize (Out HI). cbn [done] in Out.
        destruct (Nat.leb_spec (S k) i); [exact Out|lia].
    - destruct (Nat.leb_spec (S k) i); [lia|]. destruct D as [Da Db].
      destruct HI as [HI|HI].
      + cbn [idxs] in HI. destruct HI as [HI|HI]; [lia|]. apply in_app_iff in HI. destruct HI as [HI|HI].
        * split; [apply IHa; auto|]. apply IHb; auto. right. intros j J J'.
          destruct (idx_node a Ra k HI) as (n2 & E2 & _ & Inc). assert (n2 = n) by congruence. subst n2. apply (Dj j); auto.
        * split; [|apply IHb; auto]. apply IHa; auto. right. intros j J J'.
          destruct (idx_node b Rb k HI) as (n2 & E2 & _ & Inc). assert (n2 = n) by congruence. subst n2. apply (Dj j); auto.
      + cbn [leaves] in HI. split; [apply IHa|apply IHb]; auto; right; intros j J J'; apply (HI j J), in_app_iff; auto.
  Qed.

  Lemma done_end ev t K : (forall k, In k (idxs t) -> k < K) -> done ev K t.
  Proof.
    induction t as [k0|i a IHa b IHb]; cbn [done idxs]; intros H; auto.
    destruct (Nat.leb_spec K i); [specialize (H i (or_introl eq_refl)); lia|].
    split; [apply IHa|apply IHb]; intros k I; apply H; right; apply in_app_iff; auto.
  Qed.

  Lemma sound_idx t k n : rep t -> sound t -> In k (idxs t) -> nth_error ns k = Some n ->
    exists sl sr s, st (nl n) = Some sl /\ st (nr n) = Some sr /\ st (k + N) = Some s.
  Proof.
    induction t as [k0|i a IHa b IHb]; cbn [Layout.rep sound idxs]; intros R Sd I En; [destruct I|].
    destruct R as ((n' & En' & El & Er & _ & _) & _ & _ & Ra & Rb). destruct Sd as ((s & sl & sr & Es & Esl & Esr & _) & Sa & Sb).
    destruct I as [->|I].
    - assert (n' = n) by congruence. subst n'. exists sl, sr, s. rewrite El, Er. auto.
    - apply in_app_iff in I. destruct I; auto.
  Qed.

  Lemma leaves_idx_nodup t k n : rep t -> NoDup (leaves t) -> In k (idxs t) -> nth_error ns k = Some n -> NoDup (lfs n ++ rfs n).
  Proof.
    induction t as [k0|i a IHa b IHb]; cbn [Layout.rep idxs leaves]; intros R ND I En; [destruct I|].
    destruct R as ((n' & En' & El & Er & Fl & Fr) & _ & _ & Ra & Rb). destruct (NoDup_app_inv _ _ ND) as (Na & Nb & _).
    destruct I as [->|I].
    - assert (n' = n) by congruence. subst n'. rewrite Fl, Fr. exact ND.
    - apply in_app_iff in I. destruct I; auto.
  Qed.

  Lemma direction k : let nz := (2 * u k - 1)%R in let a := (2 * PI * u (S k))%R in let sZ := sqrt (1 - nz * nz) in
    (sZ * cos a * (sZ * cos a) + sZ * sin a * (sZ * sin a) + nz * nz = 1)%R.
  Proof.
    intros nz a sZ. replace (sZ * cos a * (sZ * cos a) + sZ * sin a * (sZ * sin a))%R with (sZ * sZ * (cos a * cos a + sin a * sin a))%R by ring.
    rewrite trig, Rmult_1_r. unfold sZ, nz. pose proof (sqrt_zz (u k) (U k)). lra.
  Qed.

  Lemma fills_ok t k0 : rep t -> sound t -> NoDup (leaves t) -> (forall k, k < List.length ns -> In k (idxs t)) ->
    forall rest i, (forall j, nth_error rest j = nth_error ns (i + j)) -> i + List.length rest = List.length ns ->
    exists ev k, fills N m0 u st i rest k0 = Ok (ev, k) /\ done ev i t.
  Proof.
    intros R Sd ND All. induction rest as [|n rest IH]; intros i Hn Hl; cbn [fills].
    - eexists _, _. split; [reflexivity|]. apply done_end. intros k I. cbn in Hl. pose proof (idxs_bound t R k I). lia.
    - destruct (IH (S i)) as (ev & k & -> & D).
      { intros j. specialize (Hn (S j)). cbn [nth_error] in Hn. rewrite Hn. f_equal. lia. }
      { cbn [List.length] in Hl. lia. }
      cbn [bind]. assert (En : nth_error ns i = Some n) by (specialize (Hn 0); cbn [nth_error] in Hn; rewrite Nat.add_0_r in Hn; auto).
      assert (Ii : In i (idxs t)) by (apply All; cbn [List.length] in Hl; lia).
      destruct (sound_idx t i n R Sd Ii En) as (sl & sr & s & Esl & Esr & Es). rewrite Esl, Esr, Es.
      eexists _, _. split; [reflexivity|].
      apply (visit_done ev i n _ _ _ _ En (direction k) sl sr s Esl Esr Es eq_refl); auto. apply (leaves_idx_nodup t i n); auto.
  Qed.
End Fill.
