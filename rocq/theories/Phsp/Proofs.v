From Coq Require Import Reals List Lra Lia Psatz.
From Verif.Common Require Import Prelude.
From Verif.Phsp Require Import Model Spec.
Import ListNotations.
Local Open Scope R_scope.

Lemma rlt_true a b : rlt a b = true <-> a < b.
Proof. unfold rlt; destruct (Rlt_dec a b); split; intros; auto; discriminate. Qed.
Lemma rlt_false a b : rlt a b = false <-> b <= a.
Proof. unfold rlt; destruct (Rlt_dec a b); split; intros; try discriminate; try lra; auto. Qed.

(** *** Two-body decays *)
Lemma radicand_lambda m m1 m2 : m <> 0 ->
  radicand m m1 m2 = (m * m - (m1 + m2) * (m1 + m2)) * (m * m - (m1 - m2) * (m1 - m2)) / (m * m).
Proof. intros; unfold radicand; field; auto. Qed.

Lemma radicand_nonneg m m1 m2 : 0 < m -> 0 <= m1 -> 0 <= m2 -> m1 + m2 <= m -> 0 <= radicand m m1 m2.
Proof.
  intros; rewrite radicand_lambda by lra. apply Rmult_le_pos; [|left; apply Rinv_0_lt_compat; nra].
  apply Rmult_le_pos; nra.
Qed.

Lemma radicand_pos m m1 m2 : 0 <= m1 -> 0 <= m2 -> m1 + m2 < m -> 0 < radicand m m1 m2.
Proof.
  intros; rewrite radicand_lambda by lra. apply Rmult_lt_0_compat; [|apply Rinv_0_lt_compat; nra].
  apply Rmult_lt_0_compat; nra.
Qed.

Lemma q_some m m1 m2 : 0 < m -> 0 <= m1 -> 0 <= m2 -> m1 + m2 <= m ->
  q m m1 m2 = Some (5 / 10 * sqrt (radicand m m1 m2)).
Proof.
  intros; unfold q, rsqrt. destruct (Req_EM_T m 0); [lra|].
  rewrite (proj2 (rlt_false _ _)); auto using radicand_nonneg.
Qed.

Definition breakup (p m m1 m2 : R) : Prop := 0 <= p /\ 4 * (p * p) = radicand m m1 m2.

Lemma q_breakup m m1 m2 p : 0 < m -> 0 <= m1 -> 0 <= m2 -> m1 + m2 <= m -> q m m1 m2 = Some p -> breakup p m m1 m2.
Proof.
  intros ? ? ? ? Q. rewrite q_some in Q by auto. injection Q as <-.
  pose proof (sqrt_pos (radicand m m1 m2)). pose proof (sqrt_sqrt _ (radicand_nonneg m m1 m2 H H0 H1 H2)).
  split; nra.
Qed.

Lemma breakup_left p m m1 m2 : 0 < m -> 0 <= m1 -> 0 <= m2 -> m1 + m2 <= m -> breakup p m m1 m2 ->
  sqrt (p * p + m1 * m1) = (m * m + m1 * m1 - m2 * m2) / (2 * m).
Proof.
  intros ? ? ? ? [Pp Pr].
  assert (E : p * p + m1 * m1 = Rsqr ((m * m + m1 * m1 - m2 * m2) / (2 * m))).
  { unfold radicand in Pr. unfold Rsqr. assert (p * p = radicand m m1 m2 / 4) by (unfold radicand; lra).
    rewrite H3. unfold radicand. field. lra. }
  rewrite E. apply sqrt_Rsqr. apply Rmult_le_pos; [nra|]. left; apply Rinv_0_lt_compat; lra.
Qed.

Lemma breakup_right p m m1 m2 : 0 < m -> 0 <= m1 -> 0 <= m2 -> m1 + m2 <= m -> breakup p m m1 m2 ->
  sqrt (p * p + m2 * m2) = (m * m - m1 * m1 + m2 * m2) / (2 * m).
Proof.
  intros A B C D [Pp Pr]. assert (X : breakup p m m2 m1).
  { split; auto. rewrite Pr. unfold radicand. field. lra. }
  rewrite (breakup_left p m m2 m1) by (auto; lra). f_equal. ring.
Qed.

(** *** The rotation and boost *)
Lemma plus4_assoc a b c : plus4 a (plus4 b c) = plus4 (plus4 a b) c.
Proof.
  destruct a as [[[? ?] ?] ?], b as [[[? ?] ?] ?], c as [[[? ?] ?] ?]; unfold plus4.
  refine (f_equal2 pair (f_equal2 pair (f_equal2 pair _ _) _) _); ring.
Qed.
Lemma plus4_0_l a : plus4 (0, 0, 0, 0) a = a.
Proof. destruct a as [[[? ?] ?] ?]; unfold plus4; refine (f_equal2 pair (f_equal2 pair (f_equal2 pair _ _) _) _); ring. Qed.
Lemma plus4_0_r a : plus4 a (0, 0, 0, 0) = a.
Proof. destruct a as [[[? ?] ?] ?]; unfold plus4; refine (f_equal2 pair (f_equal2 pair (f_equal2 pair _ _) _) _); ring. Qed.

Lemma total_app a b : total (a ++ b) = plus4 (total a) (total b).
Proof.
  induction a; cbn [app total fold_right]; [symmetry; apply plus4_0_l|].
  change (plus4 a (total (a0 ++ b)) = plus4 (plus4 a (total a0)) (total b)). rewrite IHa. apply plus4_assoc.
Qed.

Lemma move_plus cZ sZ cY sY b g p p' : move cZ sZ cY sY b g (plus4 p p') = plus4 (move cZ sZ cY sY b g p) (move cZ sZ cY sY b g p').
Proof.
  destruct p as [[[? ?] ?] ?], p' as [[[? ?] ?] ?]; unfold move, plus4.
  refine (f_equal2 pair (f_equal2 pair (f_equal2 pair _ _) _) _); ring.
Qed.

Lemma total_move cZ sZ cY sY b g l : total (map (move cZ sZ cY sY b g) l) = move cZ sZ cY sY b g (total l).
Proof.
  induction l; cbn [map total fold_right].
  - unfold move. refine (f_equal2 pair (f_equal2 pair (f_equal2 pair _ _) _) _); ring.
  - change (plus4 (move cZ sZ cY sY b g a) (total (map (move cZ sZ cY sY b g) l)) = move cZ sZ cY sY b g (plus4 a (total l))).
    rewrite IHl, move_plus; reflexivity.
Qed.

Lemma move_mass cZ sZ cY sY b g p : cZ * cZ + sZ * sZ = 1 -> cY * cY + sY * sY = 1 -> g * g * (1 - b * b) = 1 ->
  mass2 (move cZ sZ cY sY b g p) = mass2 p.
Proof.
  destruct p as [[[x y] z] e]; unfold move, mass2; intros Z Y G.
  transitivity (g * g * (1 - b * b) * (e * e - (sZ * x + cZ * y) * (sZ * x + cZ * y))
                - (cY * cY + sY * sY) * ((cZ * x - sZ * y) * (cZ * x - sZ * y) + z * z)); [ring|].
  rewrite G, Y. transitivity (e * e - (cZ * cZ + sZ * sZ) * (x * x + y * y) - z * z); [ring|]. rewrite Z; ring.
Qed.

Lemma move_energy cZ sZ cY sY b g p : cZ * cZ + sZ * sZ = 1 -> 0 <= g -> 0 <= b <= 1 -> 0 <= mass2 p -> 0 <= energy p ->
  0 <= energy (move cZ sZ cY sY b g p).
Proof.
  destruct p as [[[x y] z] e]; unfold move, mass2, energy; cbn [snd]; intros Z G B M E.
  apply Rmult_le_pos; auto.
  set (t := sZ * x + cZ * y). set (v := cZ * x - sZ * y).
  assert (X : t * t + v * v = (cZ * cZ + sZ * sZ) * (x * x + y * y)) by (unfold t, v; ring).
  rewrite Z in X. clearbody t v.
  assert (T : t * t <= e * e) by nra.
  assert (- e <= t) by nra. nra.
Qed.

Lemma move_shell cZ sZ cY sY b g m p : cZ * cZ + sZ * sZ = 1 -> cY * cY + sY * sY = 1 -> g * g * (1 - b * b) = 1 ->
  0 <= g -> 0 <= b <= 1 -> on_shell m p -> on_shell m (move cZ sZ cY sY b g p).
Proof.
  intros Z Y G G0 B [M E]; split; [rewrite move_mass; auto|].
  apply move_energy; auto. rewrite M. nra.
Qed.

(** *** The chain of two-body decays *)
Fixpoint chain (prev : R) (inv ms pds : list R) : Prop :=
  match inv, ms, pds with
  | i :: inv', m :: ms', p :: pds' => 0 < i /\ 0 <= m /\ 0 <= prev /\ prev + m <= i /\ breakup p i prev m /\ chain i inv' ms' pds'
  | [], [], [] => True
  | _, _, _ => False
  end.

Definition last_inv (prev : R) (inv : list R) : R := last inv prev.

Lemma sqrt_zz c : 0 < c < 1 -> (2 * c - 1) * (2 * c - 1) + sqrt (1 - (2 * c - 1) * (2 * c - 1)) * sqrt (1 - (2 * c - 1) * (2 * c - 1)) = 1.
Proof. intros. rewrite sqrt_sqrt by nra. ring. Qed.

Lemma trig a : cos a * cos a + sin a * sin a = 1.
Proof. pose proof (sin2_cos2 a) as X. unfold Rsqr in X. lra. Qed.

Lemma boost_ok p i : 0 <= p -> 0 < i ->
  let b := p / sqrt (p * p + i * i) in let g := 1 / sqrt (1 - b * b) in
  g * g * (1 - b * b) = 1 /\ 0 <= g /\ 0 <= b <= 1 /\ g * b * i = p /\ g * i = sqrt (p * p + i * i).
Proof.
  intros P I b g. set (e := sqrt (p * p + i * i)) in *.
  assert (Ee : e * e = p * p + i * i) by (apply sqrt_sqrt; nra).
  assert (Ep : 0 < e) by (apply sqrt_lt_R0; nra).
  assert (B : 1 - b * b = Rsqr (i / e)).
  { unfold b, Rsqr. transitivity ((e * e - p * p) / (e * e)); [field; lra|]. replace (e * e - p * p) with (i * i) by lra. field. lra. }
  assert (Hie : 0 < i / e) by (apply Rmult_lt_0_compat; auto; apply Rinv_0_lt_compat; auto).
  assert (G : g = e / i).
  { unfold g. rewrite B, sqrt_Rsqr by lra. field. lra. }
  assert (Hei : 0 < e / i) by (apply Rmult_lt_0_compat; auto; apply Rinv_0_lt_compat; auto).
  rewrite B, G. unfold Rsqr, b. repeat split; try (field; lra); try lra.
  - apply Rmult_le_pos; auto. left; apply Rinv_0_lt_compat; auto.
  - apply Rmult_le_reg_r with e; auto. unfold Rdiv. rewrite Rmult_assoc, Rinv_l by lra. nra.
Qed.

Lemma quad_eq (a b c d a' b' c' d' : R) : a = a' -> b = b' -> c = c' -> d = d' -> (a, b, c, d) = (a', b', c', d').
Proof. congruence. Qed.

Lemma map_shell cZ sZ cY sY b g ms l : cZ * cZ + sZ * sZ = 1 -> cY * cY + sY * sY = 1 -> g * g * (1 - b * b) = 1 ->
  0 <= g -> 0 <= b <= 1 -> Forall2 on_shell ms l -> Forall2 on_shell ms (map (move cZ sZ cY sY b g) l).
Proof. intros ? ? ? ? ? F; induction F; cbn [map]; constructor; auto using move_shell. Qed.

Lemma Forall2_snoc {A B} (P : A -> B -> Prop) l l' x y : Forall2 P l l' -> P x y -> Forall2 P (l ++ [x]) (l' ++ [y]).
Proof. intros F X; induction F; cbn [app]; constructor; auto. Qed.

Lemma shell_new p m : on_shell m (0, - p, 0, sqrt (p * p + m * m)).
Proof. split; unfold mass2, energy; cbn [snd]; [rewrite sqrt_sqrt by nra; ring|apply sqrt_pos]. Qed.
Lemma shell_first p m : on_shell m (0, p, 0, sqrt (p * p + m * m)).
Proof. split; unfold mass2, energy; cbn [snd]; [rewrite sqrt_sqrt by nra; ring|apply sqrt_pos]. Qed.

Section Build.
  Variable u : nat -> R.
  Hypothesis U : uniform u.

  Lemma build_ok pds : forall k acc ms inv prev macc, chain prev inv ms pds -> pds <> [] ->
    total acc = (0, hd 0 pds, 0, sqrt (hd 0 pds * hd 0 pds + prev * prev)) -> Forall2 on_shell macc acc ->
    total (fst (build u k acc pds ms inv)) = (0, 0, 0, last inv prev) /\ Forall2 on_shell (macc ++ ms) (fst (build u k acc pds ms inv)).
  Proof.
    induction pds as [|p pds IH]; intros k acc ms inv prev macc C N T F; [congruence|].
    destruct inv as [|i inv]; [destruct ms; contradiction|]. destruct ms as [|m ms]; [contradiction|].
    destruct C as (I & M & Pv & D & Bk & C). cbn [hd] in T. cbn [build].
    set (cZ := 2 * u k - 1). set (sZ := sqrt (1 - cZ * cZ)). set (a := 2 * PI * u (S k)).
    assert (Z : cZ * cZ + sZ * sZ = 1) by (apply sqrt_zz, U).
    pose proof (trig a) as Y.
    assert (T' : total (acc ++ [(0, - p, 0, sqrt (p * p + m * m))]) = (0, 0, 0, i)).
    { rewrite total_app, T. cbn [total fold_right]. rewrite plus4_0_r. unfold plus4.
      rewrite (breakup_left p i prev m), (breakup_right p i prev m) by auto.
      apply quad_eq; try ring. field. lra. }
    assert (F' : Forall2 on_shell (macc ++ [m]) (acc ++ [(0, - p, 0, sqrt (p * p + m * m))])) by (apply Forall2_snoc; auto using shell_new).
    replace (macc ++ m :: ms) with ((macc ++ [m]) ++ ms) by (rewrite <- app_assoc; reflexivity).
    destruct pds as [|p' pds].
    - destruct inv as [|? ?]; [|destruct ms; contradiction]. destruct ms; [|contradiction].
      cbn [build fst last]. rewrite app_nil_r. split.
      + rewrite total_move, T'. unfold move. apply quad_eq; ring.
      + apply map_shell; auto; lra.
    - assert (P' : 0 <= p').
      { destruct inv; [destruct ms; contradiction|]. destruct ms; [contradiction|]. destruct C as (_ & _ & _ & _ & B' & _). apply B'. }
      destruct (boost_ok p' i P' I) as (G & G0 & B & Gb & Gi).
      set (b := p' / sqrt (p' * p' + i * i)) in *. set (g := 1 / sqrt (1 - b * b)) in *.
      assert (L : last (i :: inv) prev = last inv i).
      { destruct inv as [|j inv]; [destruct ms; contradiction|]. cbn [last]. clear. revert j.
        induction inv as [|j' inv IHi]; intros j; [reflexivity|]. exact (IHi j'). }
      rewrite L. apply (IH (S (S k)) _ ms inv i (macc ++ [m]) C).
      + discriminate.
      + rewrite total_move, T'. cbn [hd]. unfold move. apply quad_eq; try ring.
        * transitivity (g * b * i); [ring|exact Gb].
        * transitivity (g * i); [ring|exact Gi].
      + apply map_shell; auto.
  Qed.
End Build.

(** *** The fractions *)
Fixpoint ordered (r : R) (l : list R) : Prop :=
  match l with [] => True | x :: l' => r <= x /\ 0 < x <= 1 /\ ordered x l' end.

Lemma ordered_weak r r' l : r' <= r -> ordered r l -> ordered r' l.
Proof. destruct l; cbn; auto. intros ? (? & ? & ?); repeat split; auto; lra. Qed.

Lemma ins_ordered x l : forall r, r <= x -> 0 < x <= 1 -> ordered r l -> ordered r (ins x l).
Proof.
  induction l as [|y l IH]; intros r A B O; cbn [ins].
  - cbn; auto.
  - destruct O as (O1 & O2 & O3). destruct (rlt y x) eqn:Q.
    + apply rlt_true in Q. cbn [ordered]. repeat split; try lra. apply IH; auto; lra.
    + apply rlt_false in Q. cbn [ordered]. repeat split; try lra; auto.
Qed.

Lemma sort_ordered l : Forall (fun x => 0 < x <= 1) l -> ordered 0 (sort l).
Proof. induction 1; cbn; auto. apply ins_ordered; auto; lra. Qed.

Lemma ins_length x l : List.length (ins x l) = S (List.length l).
Proof. induction l; cbn [ins]; auto. destruct (rlt a x); cbn [List.length]; auto. Qed.
Lemma sort_length l : List.length (sort l) = List.length l.
Proof. induction l; cbn; auto. rewrite ins_length. auto. Qed.

Lemma last_cons {A} (x : A) l d : l <> [] -> last (x :: l) d = last l d.
Proof. destruct l; [congruence|reflexivity]. Qed.

Lemma ins_not_nil x l : ins x l <> [].
Proof. destruct l; cbn; [discriminate|]. destruct (rlt r x); discriminate. Qed.

Lemma ins_last x l d : x < 1 -> l <> [] -> last l d = 1 -> last (ins x l) d = 1.
Proof.
  intros X. induction l as [|y l IH]; intros N L; [congruence|]. cbn [ins]. destruct (rlt y x) eqn:Q.
  - rewrite last_cons by apply ins_not_nil. destruct l as [|z l].
    + cbn [last] in L. apply rlt_true in Q. lra.
    + apply IH; [discriminate|exact L].
  - exact L.
Qed.

Lemma sort_last l d : Forall (fun x => x < 1) l -> last (sort (l ++ [1])) d = 1 /\ sort (l ++ [1]) <> [].
Proof.
  induction 1; cbn [app sort fold_right].
  - split; [reflexivity|discriminate].
  - destruct IHForall as [L N]. split; [|apply ins_not_nil]. apply ins_last; auto.
Qed.

Section Trial.
  Variable u : nat -> R.
  Hypothesis U : uniform u.

  Lemma fractions_ok k nt : exists l, fractions u k nt = 0 :: l /\ ordered 0 l /\ last l 0 = 1 /\ List.length l = S (nt - 2).
  Proof.
    unfold fractions. eexists; split; [reflexivity|].
    assert (F : forall n j, Forall (fun x => 0 < x < 1) (map (fun i => u (k + i)%nat) (seq j n))).
    { induction n; intros j; cbn [seq map]; constructor; auto. }
    split; [|split].
    - apply sort_ordered. apply Forall_app; split; [|constructor; [lra|constructor]].
      eapply Forall_impl; [|apply F]. cbn; intros; lra.
    - apply sort_last. eapply Forall_impl; [|apply F]. cbn; intros; lra.
    - rewrite sort_length, app_length, map_length, seq_length. cbn; lia.
  Qed.

  Lemma momenta_ok t rno : forall ms r sum wt, 0 < t -> 0 <= r -> 0 <= sum -> Forall (Rle 0) ms -> ordered r rno -> List.length rno = List.length ms ->
    exists pds w, momenta (r * t + sum) wt (invariants t sum rno ms) ms = Some (pds, w)
      /\ chain (r * t + sum) (invariants t sum rno ms) ms pds /\ List.length pds = List.length ms.
  Proof.
    induction rno as [|x rno IH]; intros [|m ms] r sum wt T R0 S0 F O L; try discriminate.
    - exists [], wt; repeat split.
    - cbn [invariants momenta]. inversion F as [|? ? M F']; subst. destruct O as (O1 & O2 & O3).
      assert (X : 0 < x * t + (sum + m)) by nra.
      assert (A : 0 <= r * t + sum) by nra.
      assert (D : r * t + sum + m <= x * t + (sum + m)) by nra.
      rewrite (q_some _ _ _ X A M D).
      edestruct (IH ms x (sum + m)) as (pds & w & E & C & Le); [exact T|lra|lra|exact F'|exact O3|cbn in L; lia|].
      rewrite E. cbn [option_map]. eexists _, _; split; [reflexivity|split].
      + cbn [chain]. repeat (split; [assumption|]). split; [|exact C].
        eapply q_breakup; eauto. apply q_some; auto.
      + cbn [List.length]; congruence.
  Qed.

  Lemma invariants_last t rno : forall ms s d, List.length rno = List.length ms -> rno <> [] ->
    last (invariants t s rno ms) d = last rno 0 * t + (s + sum ms).
  Proof.
    induction rno as [|x rno IH]; intros [|m ms] s d L N; try discriminate; [congruence|].
    cbn [invariants]. destruct rno as [|y rno].
    - destruct ms; [|discriminate]. cbn [invariants last sum fold_right]. ring.
    - rewrite last_cons; [|destruct ms; discriminate].
      rewrite IH; [|cbn in L |- *; lia|discriminate]. rewrite (last_cons x) by discriminate. cbn [sum fold_right]. fold (sum ms). ring.
  Qed.

  Definition good (s : phsp) : Prop := (2 <= List.length (masses s) <= kMAXP)%nat /\ Forall (Rle 0) (masses s) /\ 0 < te s.

  Lemma trial_ok s k : good s -> exists i inv pd w m ms, trial u s k = Some (i :: inv, pd, w) /\ masses s = m :: ms
    /\ i = m /\ chain m inv ms pd /\ pd <> [] /\ last inv i = te s + sum (masses s).
  Proof.
    intros (L & F & T). destruct s as [ms t wm]; cbn [masses te wtMax] in *. unfold trial; cbn [masses te wtMax].
    destruct (fractions_ok k (List.length ms)) as (l & -> & O & La & Le).
    destruct ms as [|m ms]; [cbn in L; lia|]. cbn [invariants]. inversion F as [|? ? M F']; subst.
    assert (Ll : List.length l = List.length ms) by (cbn [List.length] in Le, L; lia).
    destruct (momenta_ok t l ms 0 (0 + m) wm T) as (pds & w & E & C & Lp); auto; try lra.
    rewrite E. cbn [option_map]. exists (0 * t + (0 + m)), (invariants t (0 + m) l ms), pds, w, m, ms.
    assert (Hm : 0 * t + (0 + m) = m) by ring.
    repeat split; auto.
    - rewrite Hm in C at 1. exact C.
    - intros ->. cbn [List.length] in *. lia.
    - rewrite invariants_last.
      + rewrite La. change (sum (m :: ms)) with (m + sum ms). ring.
      + cbn [List.length] in *. lia.
      + intros ->. cbn in Le. lia.
  Qed.

  Lemma trials_ok s fuel : good s -> forall k inv pd k', trials u fuel s k = Ok (inv, pd, k') ->
    exists i inv' m ms, inv = i :: inv' /\ masses s = m :: ms /\ i = m /\ chain m inv' ms pd /\ pd <> [] /\ last inv' i = te s + sum (masses s).
  Proof.
    intros G. induction fuel as [|fuel IH]; intros k inv pd k' E; cbn [trials] in E; [discriminate|].
    destruct (trial_ok s k G) as (i & inv0 & pd0 & w & m & ms & Et & Em & Hi & C & N & La). rewrite Et in E.
    destruct (rlt w (u (k + (List.length (masses s) - 2)))).
    - apply (IH _ _ _ _ E).
    - injection E as <- <- _. exists i, inv0, m, ms; auto 10.
  Qed.

  Lemma fill_ok s fuel l : good s -> fill u fuel s = Ok l -> total l = (0, 0, 0, te s + sum (masses s)) /\ Forall2 on_shell (masses s) l.
  Proof.
    intros G E. unfold fill in E.
    replace (Nat.ltb (List.length (masses s)) 2) with false in E by (symmetry; apply Nat.ltb_ge; apply G).
    replace (Nat.ltb kMAXP (List.length (masses s))) with false in E by (symmetry; apply Nat.ltb_ge; apply G).
    cbn [orb] in E. destruct (trials u fuel s 0) as [[[inv pd] k]| | |] eqn:Et; try discriminate. cbn [bind] in E.
    destruct (trials_ok s fuel G 0%nat inv pd k Et) as (i & inv' & m & ms & -> & Em & -> & C & N & La).
    destruct pd as [|p pd]; [congruence|]. rewrite Em in E.
    assert (El : fst (build u k [(0, p, 0, sqrt (p * p + m * m))] (p :: pd) ms inv') = l) by congruence. rewrite <- La, Em, <- El.
    apply (build_ok u U (p :: pd) k _ ms inv' m [m] C N).
    - cbn [total fold_right hd]. apply plus4_0_r.
    - constructor; [apply shell_first|constructor].
  Qed.

  Lemma trials_safe s : good s -> forall fuel k, trials u fuel s k = OutOfFuel \/ exists r, trials u fuel s k = Ok r.
  Proof.
    intros G; induction fuel as [|fuel IH]; intros k; cbn [trials]; auto.
    destruct (trial_ok s k G) as (i & inv0 & pd0 & w & m & ms & Et & _). rewrite Et. destruct (rlt _ _); eauto.
  Qed.

  Lemma fill_safe s fuel : good s -> fill u fuel s = OutOfFuel \/ exists l, fill u fuel s = Ok l.
  Proof.
    intros G. unfold fill.
    replace (Nat.ltb (List.length (masses s)) 2) with false by (symmetry; apply Nat.ltb_ge; apply G).
    replace (Nat.ltb kMAXP (List.length (masses s))) with false by (symmetry; apply Nat.ltb_ge; apply G). cbn [orb].
    destruct (trials_safe s G fuel 0%nat) as [-> | [[[inv pd] k] Et]]; [left; reflexivity|]. rewrite Et. cbn [bind].
    destruct (trials_ok s fuel G 0%nat inv pd k Et) as (i & inv' & m & ms & -> & Em & -> & C & N & La).
    destruct pd as [|p pd]; [congruence|]. rewrite Em. right; eauto.
  Qed.

  (** The loop ends at the first trial that is accepted. *)
  Lemma trials_live s : good s -> forall j fuel k inv pd w, (j < fuel)%nat ->
    trial u s (k + j * (List.length (masses s) - 1)) = Some (inv, pd, w) ->
    u (k + j * (List.length (masses s) - 1) + (List.length (masses s) - 2))%nat <= w -> exists r, trials u fuel s k = Ok r.
  Proof.
    intros G. induction j as [|j IH]; intros [|fuel] k inv pd w J E W; try lia; cbn [trials].
    - rewrite Nat.mul_0_l, Nat.add_0_r in *. rewrite E. rewrite (proj2 (rlt_false _ _) W). eauto.
    - destruct (trial_ok s k G) as (i & inv0 & pd0 & w0 & m & ms & Et & _). rewrite Et. destruct (rlt w0 _); [|eauto].
      assert (X : (S (k + (List.length (masses s) - 2)) + j * (List.length (masses s) - 1) = k + S j * (List.length (masses s) - 1))%nat).
      { destruct G as [L _]. cbn [Nat.mul]. lia. }
      apply (IH fuel _ inv pd w); [lia|rewrite X; exact E|rewrite X; exact W].
  Qed.

  Lemma fill_live s j inv pd w : good s -> trial u s (j * (List.length (masses s) - 1)) = Some (inv, pd, w) ->
    u (j * (List.length (masses s) - 1) + (List.length (masses s) - 2))%nat <= w -> exists l, fill u (S j) s = Ok l.
  Proof.
    intros G E W. destruct (fill_safe s (S j) G) as [O|X]; auto. exfalso.
    destruct (trials_live s G j (S j) 0%nat inv pd w) as [r R]; auto.
    unfold fill in O. rewrite R in O. destruct (_ || _); [discriminate|]. cbn [bind] in O.
    destruct r as [[inv0 pd0] k0]. destruct pd0, (masses s), inv0; discriminate.
  Qed.
End Trial.

(** *** The weight *)
Lemma radicand_mono_m m m' m1 m2 : 0 <= m1 -> 0 <= m2 -> 0 < m -> m1 + m2 <= m -> m <= m' -> radicand m m1 m2 <= radicand m' m1 m2.
Proof.
  intros A B C D E.
  assert (X : radicand m' m1 m2 - radicand m m1 m2
              = (m' * m' - m * m) * (m * m * (m' * m') - (m1 * m1 - m2 * m2) * (m1 * m1 - m2 * m2)) / (m * m * (m' * m'))).
  { unfold radicand. field. lra. }
  assert (0 <= radicand m' m1 m2 - radicand m m1 m2); [|lra]. rewrite X.
  assert (m1 * m1 - m2 * m2 <= m * m) by nra. assert (- (m * m) <= m1 * m1 - m2 * m2) by nra.
  assert (m * m <= m' * m') by nra. assert (0 < m * m) by nra. clear X.
  generalize dependent (m1 * m1 - m2 * m2). generalize dependent (m * m). generalize dependent (m' * m'). clear. intros s' s H0 H1 b H2 H3.
  assert (b * b <= s * s) by nra. apply Rmult_le_pos; [|left; apply Rinv_0_lt_compat; nra]. apply Rmult_le_pos; nra.
Qed.

Lemma radicand_anti_m1 m m1 m1' m2 : 0 <= m1 -> 0 <= m2 -> 0 < m -> m1 <= m1' -> m1' + m2 <= m -> radicand m m1' m2 <= radicand m m1 m2.
Proof.
  intros A B C D E.
  assert (X : radicand m m1 m2 - radicand m m1' m2 = (m1' * m1' - m1 * m1) * (2 * (m * m) - m1 * m1 - m1' * m1' + 2 * (m2 * m2)) / (m * m)).
  { unfold radicand. field. lra. }
  assert (0 <= radicand m m1 m2 - radicand m m1' m2); [|lra]. rewrite X.
  apply Rmult_le_pos; [|left; apply Rinv_0_lt_compat; nra]. apply Rmult_le_pos; nra.
Qed.

Lemma weight_bound t rno : forall ms r s mp emmin wt W pds w Wm, 0 < t -> 0 <= r -> 0 <= emmin -> 0 <= mp -> s = emmin + mp -> Forall (Rle 0) ms ->
  ordered r rno -> List.length rno = List.length ms ->
  momenta (r * t + s) wt (invariants t s rno ms) ms = Some (pds, w) ->
  weight_max mp emmin (t + s) W ms = Some Wm ->
  exists a b, w = wt * a /\ Wm = W * b /\ 0 <= a <= b /\ 0 < b.
Proof.
  induction rno as [|x rno IH]; intros [|m ms] r s mp emmin wt W pds w Wm T R0 E0 M0 -> F O L Em Ew; try discriminate.
  - cbn in Em, Ew. injection Em as _ <-. injection Ew as <-. exists 1, 1. repeat split; lra.
  - cbn [invariants momenta weight_max] in Em, Ew. inversion F as [|? ? M F']; subst. destruct O as (O1 & O2 & O3).
    assert (X : 0 < x * t + (emmin + mp + m)) by nra.
    assert (A : 0 <= r * t + (emmin + mp)) by nra.
    assert (D : r * t + (emmin + mp) + m <= x * t + (emmin + mp + m)) by nra.
    rewrite (q_some _ _ _ X A M D) in Em.
    rewrite (q_some (t + (emmin + mp) + m) (emmin + mp) m) in Ew by nra.
    set (p := 5 / 10 * sqrt (radicand (x * t + (emmin + mp + m)) (r * t + (emmin + mp)) m)) in *.
    set (P := 5 / 10 * sqrt (radicand (t + (emmin + mp) + m) (emmin + mp) m)) in *.
    destruct (momenta (x * t + (emmin + mp + m)) (wt * p) (invariants t (emmin + mp + m) rno ms) ms) as [[pds' w']|] eqn:Em'; [|discriminate].
    cbn [option_map] in Em. injection Em as _ <-.
    replace (t + (emmin + mp) + m) with (t + (emmin + mp + m)) in Ew by ring.
    edestruct (IH ms x (emmin + mp + m) m (emmin + mp) (wt * p) (W * P) pds' w' Wm) as (a & b & Ha & Hb & Hab & Hb0); auto; try lra.
    assert (Hp : 0 <= p) by (unfold p; pose proof (sqrt_pos (radicand (x * t + (emmin + mp + m)) (r * t + (emmin + mp)) m)); lra).
    assert (HP : 0 < P).
    { unfold P. assert (0 < sqrt (radicand (t + (emmin + mp) + m) (emmin + mp) m)); [|lra]. apply sqrt_lt_R0, radicand_pos; lra. }
    assert (HpP : p <= P).
    { unfold p, P. apply Rmult_le_compat_l; [lra|]. apply sqrt_le_1_alt.
      eapply Rle_trans; [apply (radicand_mono_m _ (t + (emmin + mp) + m)); auto; nra|].
      apply radicand_anti_m1; auto; nra. }
    exists (p * a), (P * b). repeat split.
    + rewrite Ha; ring.
    + rewrite Hb; ring.
    + apply Rmult_le_pos; lra.
    + apply Rmult_le_compat; lra.
    + apply Rmult_lt_0_compat; lra.
Qed.

Lemma weight_max_pos t ms : forall s mp emmin W, 0 < t -> 0 <= emmin -> 0 <= mp -> s = emmin + mp -> Forall (Rle 0) ms -> 0 < W ->
  exists Wm, weight_max mp emmin (t + s) W ms = Some Wm /\ 0 < Wm.
Proof.
  induction ms as [|m ms IH]; intros s mp emmin W T E0 M0 -> F HW; cbn [weight_max]; [eauto|].
  inversion F as [|? ? M F']; subst. rewrite q_some by lra.
  replace (t + (emmin + mp) + m) with (t + (emmin + mp + m)) by ring.
  apply IH; auto; try lra. apply Rmult_lt_0_compat; auto.
  assert (0 < sqrt (radicand (t + (emmin + mp + m)) (emmin + mp) m)); [|lra]. apply sqrt_lt_R0, radicand_pos; lra.
Qed.

Lemma fold_minus ms : forall m0, fold_left Rminus ms m0 = m0 - sum ms.
Proof. induction ms as [|m ms IH]; intros m0; cbn [fold_left sum fold_right]; [ring|]. rewrite IH. fold (sum ms). ring. Qed.

Lemma set_decay_ok old m0 ms : (1 <= List.length ms <= kMAXP)%nat -> Forall (Rle 0) ms -> sum ms < m0 ->
  exists w, set_decay old m0 ms = Ok (true, Phsp ms (m0 - sum ms) w) /\ 0 < w.
Proof.
  intros L F S. unfold set_decay. replace (Nat.ltb kMAXP (List.length ms)) with false by (symmetry; apply Nat.ltb_ge; apply L).
  rewrite fold_minus. destruct ms as [|m ms]; [cbn in L; lia|].
  rewrite (proj2 (rlt_true _ _)) by lra. inversion F as [|? ? M F']; subst.
  destruct (weight_max_pos (m0 - sum (m :: ms)) ms m m 0 1) as (Wm & E & P); auto; try lra.
  rewrite E. destruct (Req_EM_T Wm 0); [lra|]. eexists; split; [reflexivity|].
  unfold Rdiv; rewrite Rmult_1_l. apply Rinv_0_lt_compat; auto.
Qed.

Lemma set_decay_good old m0 ms s : (2 <= List.length ms <= kMAXP)%nat -> Forall (Rle 0) ms -> sum ms < m0 ->
  set_decay old m0 ms = Ok (true, s) -> good s /\ masses s = ms /\ te s + sum ms = m0.
Proof.
  intros L F S E. destruct (set_decay_ok old m0 ms) as (w & E' & _); auto; [lia|]. rewrite E' in E. injection E as <-.
  unfold good; cbn [masses te]. repeat split; auto; try lra; apply L.
Qed.

Lemma weight_one u (U : uniform u) old m0 ms s k inv pd w : (2 <= List.length ms <= kMAXP)%nat -> Forall (Rle 0) ms -> sum ms < m0 ->
  set_decay old m0 ms = Ok (true, s) -> trial u s k = Some (inv, pd, w) -> 0 <= w <= 1.
Proof.
  intros L F S E Et. unfold set_decay in E. replace (Nat.ltb kMAXP (List.length ms)) with false in E by (symmetry; apply Nat.ltb_ge; apply L).
  rewrite fold_minus in E. destruct ms as [|m ms]; [discriminate|].
  rewrite (proj2 (rlt_true _ _)) in E by lra. inversion F as [|? ? M F']; subst.
  set (t := m0 - sum (m :: ms)) in *. assert (T : 0 < t) by (unfold t; lra).
  destruct (weight_max m 0 (t + m) 1 ms) as [Wm|] eqn:Ew; [|discriminate]. destruct (Req_EM_T Wm 0) as [|NW]; [discriminate|]. injection E as <-.
  unfold trial in Et. cbn [masses te wtMax] in Et.
  destruct (fractions_ok u U k (List.length (m :: ms))) as (l & El & O & La & Le). rewrite El in Et. cbn [invariants] in Et.
  destruct (momenta (0 * t + (0 + m)) (1 / Wm) (invariants t (0 + m) l ms) ms) as [[pds w']|] eqn:Em; [|discriminate].
  cbn [option_map] in Et. injection Et as _ _ <-.
  replace (0 + m) with m in Em by ring.
  assert (Ll : List.length l = List.length ms) by (cbn [List.length] in *; lia).
  destruct (weight_bound t l ms 0 m m 0 (1 / Wm) 1 pds w' Wm T (Rle_refl 0) (Rle_refl 0) M (eq_sym (Rplus_0_l m)) F' O Ll Em Ew)
    as (a & b & Ha & Hb & Hab & Hb0).
  subst w'. rewrite Rmult_1_l in Hb. clear Ew Em. subst Wm. split.
  - apply Rmult_le_pos; [|lra]. unfold Rdiv; rewrite Rmult_1_l. left; apply Rinv_0_lt_compat; auto.
  - apply Rmult_le_reg_l with b; auto. replace (b * (1 / b * a)) with a by (field; lra). lra.
Qed.

(** *** Two bodies: every trial is accepted *)
Lemma two_body_weight u old m0 a b s k : 0 <= a -> 0 <= b -> a + b < m0 -> set_decay old m0 [a; b] = Ok (true, s) ->
  exists inv pd, trial u s k = Some (inv, pd, 1).
Proof.
  intros A B D E. unfold set_decay in E. cbn [List.length] in E. change (Nat.ltb kMAXP 2) with false in E. rewrite fold_minus in E.
  rewrite (proj2 (rlt_true _ _)) in E by (cbn [sum fold_right]; lra). cbn [weight_max] in E.
  rewrite q_some in E by (cbn [sum fold_right]; lra).
  cbn [weight_max] in E. match type of E with context [Req_EM_T ?x 0] => set (W := x) in * end.
  destruct (Req_EM_T W 0) as [|N]; [discriminate|]. injection E as <-.
  unfold trial. cbn [masses te wtMax List.length fractions Nat.sub seq map app sort fold_right ins invariants momenta].
  rewrite q_some; cbn [sum fold_right]; try lra. cbn [option_map]. eexists _, _. f_equal. f_equal.
  unfold W in *. cbn [sum fold_right] in *.
  replace (m0 - (a + (b + 0)) + a + b) with m0 in * by ring.
  replace (1 * (m0 - (a + (b + 0))) + (0 + a + b)) with m0 by ring.
  replace (0 * (m0 - (a + (b + 0))) + (0 + a)) with a by ring. replace (0 + a) with a in * by ring.
  field. intros X. apply N. rewrite X. ring.
Qed.

(** *** At threshold *)
Lemma q_zero m1 m2 : 0 < m1 + m2 -> 0 <= m1 -> 0 <= m2 -> q (m1 + m2) m1 m2 = Some 0.
Proof.
  intros. rewrite q_some by lra. f_equal. replace (radicand (m1 + m2) m1 m2) with 0; [rewrite sqrt_0; ring|]. unfold radicand. field. lra.
Qed.

Lemma invariants_threshold rno : forall ms s, List.length rno = List.length ms -> Forall (Rlt 0) ms -> 0 < s ->
  forall wt, exists pds, momenta s wt (invariants 0 s rno ms) ms = Some (pds, match ms with [] => wt | _ => 0 end).
Proof.
  induction rno as [|x rno IH]; intros [|m ms] s L F S0 wt; try discriminate; cbn [invariants momenta]; [eauto|].
  inversion F as [|? ? M F']; subst.
  replace (x * 0 + (s + m)) with (s + m) by ring. rewrite q_zero by lra.
  destruct (IH ms (s + m) ltac:(cbn in L; lia) F' ltac:(lra) (wt * 0)) as [pds E]. rewrite E. cbn [option_map].
  exists (0 :: pds). repeat f_equal. destruct ms; [ring|reflexivity].
Qed.

Lemma threshold_stuck u (U : uniform u) ms wm : (2 <= List.length ms <= kMAXP)%nat -> Forall (Rlt 0) ms ->
  forall fuel, fill u fuel (Phsp ms 0 wm) = OutOfFuel.
Proof.
  intros L F fuel. unfold fill. cbn [masses].
  replace (Nat.ltb (List.length ms) 2) with false by (symmetry; apply Nat.ltb_ge; apply L).
  replace (Nat.ltb kMAXP (List.length ms)) with false by (symmetry; apply Nat.ltb_ge; apply L). cbn [orb].
  assert (X : forall fuel k, trials u fuel (Phsp ms 0 wm) k = OutOfFuel).
  { clear fuel. induction fuel as [|fuel IH]; intros k; cbn [trials masses]; auto.
    unfold trial. cbn [masses te wtMax].
    destruct (fractions_ok u U k (List.length ms)) as (l & El & _ & _ & Le). rewrite El.
    destruct ms as [|m [|m' ms]]; try (cbn in L; lia). cbn [invariants]. inversion F as [|? ? M F']; subst.
    replace (0 * 0 + (0 + m)) with (0 + m) by ring.
    destruct (invariants_threshold l (m' :: ms) (0 + m) ltac:(cbn [List.length] in *; lia) F' ltac:(lra) wm) as [pds E].
    rewrite E. cbn [option_map]. rewrite (proj2 (rlt_true _ _)) by (apply U). apply IH. }
  rewrite X. reflexivity.
Qed.

Lemma below_nan u a b wm fuel : 0 < a -> 0 < b -> forall m0, (a - b) * (a - b) < m0 * m0 < (a + b) * (a + b) -> 0 < m0 ->
  fill u (S fuel) (Phsp [a; b] (m0 - (a + b)) wm) = Throw.
Proof.
  intros A B m0 D P. unfold fill. cbn [masses List.length]. change (Nat.ltb 2 2 || Nat.ltb kMAXP 2) with false. cbn [trials masses List.length Nat.sub].
  unfold trial. cbn [masses te wtMax List.length fractions Nat.sub seq map app sort fold_right ins invariants momenta].
  replace (1 * (m0 - (a + b)) + (0 + a + b)) with m0 by ring. replace (0 * (m0 - (a + b)) + (0 + a)) with a by ring.
  unfold q. destruct (Req_EM_T m0 0); [lra|]. unfold rsqrt. rewrite (proj2 (rlt_true _ _)); [reflexivity|].
  rewrite radicand_lambda by lra.
  assert (0 < / (m0 * m0)) by (apply Rinv_0_lt_compat; nra). unfold Rdiv.
  assert ((m0 * m0 - (a + b) * (a + b)) * (m0 * m0 - (a - b) * (a - b)) < 0) by nra. nra.
Qed.
