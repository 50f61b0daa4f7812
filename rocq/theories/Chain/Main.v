(** A chain: set-up of the nodes, proposals, events. *)
From Coq Require Import Reals List Lia Permutation Lra.
From Verif.Common Require Import Prelude.
From Verif.Phsp Require Import Model Spec Proofs.
From Verif.Chain Require Import Model Spec Kinematics Layout Fill Propose.
Import ListNotations.
Local Open Scope nat_scope.

Lemma rsqrt_Ok x y : rsqrt x = Some y -> (0 <= x)%R /\ y = sqrt x.
Proof. unfold rsqrt. destruct (rlt x 0) eqn:E; [discriminate|]. apply rlt_false in E. intros H. injection H as <-. split; [lra|reflexivity]. Qed.

Section Main.
  Variable swaps : particle -> particle -> bool.
  Variable renamed : attrs -> attrs.
  Variable nonres : attrs.

  Lemma resonances_in a d ds : resonances (Decay a ds) -> In d ds -> resonances d.
  Proof. intros H I a' ds' P. apply (H a' ds'). eapply part_in; eauto. Qed.

  Lemma qsum_nonneg : forall p, decays p -> resonances p -> (0 <= qsum p)%R.
  Proof.
    fix IH 1. intros [k m|a ds] D W; cbn [qsum]; [lra|].
    destruct D as [_ D]. assert (Wd : forall d, In d ds -> resonances d) by (intros; eapply resonances_in; eauto).
    generalize (negb (List.length ds =? 1)). intros b. clear W.
    induction ds as [|d ds IHd]; cbn [map fold_right]; [lra|]. cbn [fold_right] in D. destruct D as [Dd D].
    specialize (IHd D (fun d I => Wd d (or_intror I))). specialize (Wd d (or_introl eq_refl)).
    apply Rplus_le_le_0_compat; [|exact IHd].
    pose proof (IH d Dd Wd) as Q. destruct d as [k m|a' [|d' ds']]; [exact Dd| |].
    - apply (Wd a' []). constructor.
    - destruct (quasi a' && b); [|exact Q]. apply (Wd a' (d' :: ds')). constructor.
  Qed.

  Lemma set_up_node spare i a x y l r : well a -> (0 <= qsum (Decay a [x; y]))%R -> (0 <= spare)%R ->
    set_up (node_for spare i a x y l r) /\ (0 < i -> (0 <= lo (node_for spare i a x y l r))%R).
  Proof.
    intros (M & G & BWa) Q Sp. unfold node_for. set (mm := qsum (Decay a [x; y])) in *. clearbody mm.
    assert (MG : (0 <= amass a * awidth a)%R) by (apply Rmult_le_pos; auto).
    unfold node_set, set_up. destruct (quasi a) eqn:Eq; [rewrite orb_true_r; cbn; split; [lra|intros; nra]|].
    rewrite orb_false_r. destruct (flat a) eqn:Ef.
    - destruct (Nat.eqb_spec i 0); cbn; (split; [nra|]); intros; [lia|nra].
    - destruct (BWa eq_refl eq_refl) as [M0 G0]. assert (MG0 : (0 < amass a * awidth a)%R) by (apply Rmult_lt_0_compat; auto).
      destruct (Nat.eqb_spec i 0); cbn; (split; [split; [auto|split; [nra|auto]]|]); intros; [lia|nra].
  Qed.

  Lemma set_up_with n a b : set_up n -> set_up (with_leaves n a b).
  Proof. unfold set_up. destruct n; auto. Qed.

  Hypothesis Wr : forall a, well a -> well (renamed a).
  Hypothesis Wn : well nonres.

  Lemma binary_well a ds a' x y : decays (Decay a ds) -> resonances (Decay a ds) -> binary swaps renamed nonres a ds = Ok (a', x, y) ->
    well a' /\ (decays x /\ resonances x) /\ (decays y /\ resonances y).
  Proof.
    intros D W E. destruct (binary_ok swaps renamed nonres a ds D) as (a2 & x2 & y2 & E2 & Dx & Dy & _). rewrite E in E2. injection E2 as <- <- <-.
    assert (Wa : well a) by (apply (W a ds); constructor).
    destruct ds as [|x0 [|y0 [|z0 ds']]]; cbn [binary] in E; try discriminate.
    - injection E as <- <- <-. split; auto. split; split; auto; apply (resonances_in a _ [x0; y0] W); cbn; auto.
    - cbn [stable] in E. assert (Wx : resonances x0) by (eapply resonances_in; eauto; cbn; auto).
      assert (Wy : resonances (Decay nonres (y0 :: z0 :: ds'))).
      { intros b es P. inversion P as [|? d ? I Pd]; subst; [exact Wn|]. eapply (resonances_in a d _ W); [right; exact I|exact Pd]. }
      destruct (swaps x0 (Decay nonres (y0 :: z0 :: ds'))); injection E as <- <- <-; auto 10.
  Qed.

  Definition prepared (j : nat) (n : node) : Prop := set_up n /\ (0 < j -> (0 <= lo n)%R).

  Lemma spare_nonneg p : allowed p -> (0 <= spare_of p)%R.
  Proof. unfold allowed, spare_of. lra. Qed.

  Lemma chain_unstable p : chain p -> stable p = false.
  Proof.
    intros (D & _ & L). destruct p as [k m|a ds]; [cbn in L; lia|]. destruct D as [D _]. destruct ds; [cbn in D; lia|reflexivity].
  Qed.

  Lemma construct_prepared p fuel : chain p -> resonances p -> allowed p -> List.length (finals p) <= fuel ->
    exists ns prod t, built swaps renamed nonres p ns prod t /\ (forall j n, nth_error ns j = Some n -> prepared j n) /\
      construct swaps renamed nonres fuel p = match rsqrt prod with Some w => Ok (ns, w) | None => Throw end.
  Proof.
    intros C W A F. apply (construct_ok swaps renamed nonres (fun q => decays q /\ resonances q) prepared); auto.
    - intros a ds a' x y [D Wd] E. destruct (binary_well a ds a' x y D Wd E) as (Wa & X & Y). split; auto. split; auto.
      intros i l r. apply set_up_node; auto; [|apply spare_nonneg; auto].
      assert (Q := qsum_nonneg x (proj1 X) (proj2 X)). assert (Q' := qsum_nonneg y (proj1 Y) (proj2 Y)). clear - Wa X Y Q Q'.
      assert (One : forall d, decays d /\ resonances d -> (0 <= qsum d)%R ->
        (0 <= match d with Stable _ m => m | Decay a0 [] => amass a0 | Decay a0 (_ :: _) => if quasi a0 && negb (2 =? 1) then amass a0 else qsum d end)%R).
      { intros [k m|a0 [|d ds]] [Dd Wd] Qd; [exact Dd|apply (Wd a0 []); constructor|]. destruct (quasi a0 && _); [|exact Qd]. apply (Wd a0 (d :: ds)). constructor. }
      pose proof (One x X Q). pose proof (One y Y Q').
      change (qsum (Decay a' [x; y])) with (match x with Stable _ m => m | Decay a0 [] => amass a0 | Decay a0 (_ :: _) => if quasi a0 && negb (2 =? 1) then amass a0 else qsum x end
        + (match y with Stable _ m => m | Decay a0 [] => amass a0 | Decay a0 (_ :: _) => if quasi a0 && negb (2 =? 1) then amass a0 else qsum y end + 0))%R. lra.
    - destruct C as (D & _ & _). auto.
    - apply chain_unstable; auto.
  Qed.

  Lemma construct_plain p fuel : chain p -> List.length (finals p) <= fuel ->
    exists ns prod t, built swaps renamed nonres p ns prod t /\
      construct swaps renamed nonres fuel p = match rsqrt prod with Some w => Ok (ns, w) | None => Throw end.
  Proof.
    intros C F. destruct (construct_ok swaps renamed nonres (fun _ => True) (fun _ _ => True) p fuel) as (ns & w & t & B & _ & E); auto.
    - apply chain_unstable; auto.
    - eauto.
  Qed.

  Notation Nf p := (List.length (finals p)).

  (** Proposals. *)
  Lemma proposal_ok p ns prod t u : chain p -> uniform u -> built swaps renamed nonres p ns prod t ->
    proposal (Nf p) (mass_of p) u ns = Throw \/
    exists st w k, proposal (Nf p) (mass_of p) u ns = Ok (st, sqrt w, k) /\ written (Nf p) (mass_of p) u ns st 0 /\ (0 <= w)%R
      /\ ((0 < w)%R -> sound (Nf p) (mass_of p) st t)
      /\ ((forall j n, nth_error ns j = Some n -> prepared j n) -> (0 < w)%R -> (w <= prod)%R).
  Proof.
    intros C U B. unfold proposal.
    destruct (propose_ok (Nf p) (mass_of p) u U ns (b_refs _ _ _ _ _ _ _ B) ns 0) as [-> |(st & w & k & -> & W & W0 & Ph & Bd)]; auto.
    right. exists st, w, k. split; [reflexivity|]. split; auto. split; auto. split.
    - intros Hw. apply (sound_tree _ _ u ns); auto; [|apply mass_of_nonneg; destruct C as (D & _); exact D|apply B].
      intros j n E. apply Ph; auto. lia.
    - intros Pr Hw. rewrite (b_prod _ _ _ _ _ _ _ B). apply Bd; auto.
  Qed.

  Lemma total_perm l l' : Permutation l l' -> total l = total l'.
  Proof.
    induction 1 as [|x l l' P IH|x y l|l l' l'' P IH P' IH']; auto.
    - change (plus4 x (total l) = plus4 x (total l')). rewrite IH. reflexivity.
    - change (plus4 y (plus4 x (total l)) = plus4 x (plus4 y (total l))). destruct x as [[[? ?] ?] ?], y as [[[? ?] ?] ?], (total l) as [[[? ?] ?] ?].
      unfold plus4. apply quad_eq; ring.
    - congruence.
  Qed.

  Lemma system_perm ev l l' : Permutation l l' -> system ev l = system ev l'.
  Proof. intros P. unfold system. apply total_perm, Permutation_map, P. Qed.

  Lemma add4_plus a b : add4 a b = plus4 a b.
  Proof. destruct a as [[[? ?] ?] ?], b as [[[? ?] ?] ?]. reflexivity. Qed.

  Lemma plus4_assoc a b c : plus4 (plus4 a b) c = plus4 a (plus4 b c).
  Proof. destruct a as [[[? ?] ?] ?], b as [[[? ?] ?] ?], c as [[[? ?] ?] ?]. unfold plus4. apply quad_eq; ring. Qed.

  Lemma fold_system ev l : forall P, fold_left (fun P k => add4 P (ev k)) l P = plus4 P (system ev l).
  Proof.
    induction l as [|k l IH]; intros P; cbn [fold_left].
    - change (P = plus4 P (0, 0, 0, 0)%R). rewrite plus4_0_r. reflexivity.
    - rewrite IH. exact (plus4_assoc P (ev k) (system ev l)).
  Qed.

  Lemma inv_mass_system ev l r : inv_mass ev l r = mass2 (system ev (l ++ r)).
  Proof.
    unfold inv_mass. rewrite !fold_system, (system_app ev l r).
    assert (Z : plus4 (0, 0, 0, 0)%R (system ev l) = system ev l).
    { destruct (system ev l) as [[[? ?] ?] ?]. unfold plus4. apply quad_eq; ring. }
    rewrite Z. destruct (plus4 (system ev l) (system ev r)) as [[[x y] z] e]. unfold mass2. ring.
  Qed.

  Lemma masses_idx N m0 st ns ev t i n : rep N ns t -> right_masses N m0 st ev t -> In i (idxs t) -> nth_error ns i = Some n ->
    st (i + N) = Some (mass2 (system ev (lfs n ++ rfs n))).
  Proof.
    induction t as [k|j a IHa b IHb]; cbn [rep right_masses idxs]; intros R M I E; [destruct I|].
    destruct R as ((n' & En & _ & _ & Fl & Fr) & _ & _ & Ra & Rb). destruct M as (Ms & Ma & Mb). destruct I as [->|I].
    - assert (n' = n) by congruence. subst n'. rewrite Fl, Fr. exact Ms.
    - apply in_app_iff in I. destruct I; auto.
  Qed.

  Lemma masses_leaf N m0 st ev t k : right_masses N m0 st ev t -> In k (leaves t) -> on_shell (m0 k) (ev k).
  Proof.
    induction t as [j|j a IHa b IHb]; cbn [right_masses leaves]; intros M I.
    - destruct I as [->|[]]. exact M.
    - destruct M as (_ & Ma & Mb). apply in_app_iff in I. destruct I; auto.
  Qed.

  Lemma finals_all p k : chain p -> k < Nf p -> In k (map fst (finals p)).
  Proof.
    intros (_ & (ND & Bd) & _) K.
    assert (I : incl (seq 0 (Nf p)) (map fst (finals p))).
    { apply NoDup_length_incl; [auto|rewrite seq_length, map_length; lia|]. rewrite Forall_forall in Bd. intros x X. apply in_seq. specialize (Bd x X). lia. }
    apply I, in_seq. lia.
  Qed.

  Lemma finals_seq p : chain p -> Permutation (map fst (finals p)) (seq 0 (Nf p)).
  Proof.
    intros C. apply NoDup_Permutation_bis.
    - apply C.
    - rewrite seq_length, map_length. lia.
    - destruct C as (_ & (_ & Bd) & _). rewrite Forall_forall in Bd. intros x X. apply in_seq. specialize (Bd x X). lia.
  Qed.

  Lemma filled p ns prod t u st k0 : chain p -> uniform u -> built swaps renamed nonres p ns prod t -> sound (Nf p) (mass_of p) st t ->
    exists ev k', fill_from_state (Nf p) (mass_of p) u st ns k0 = Ok (ev, k')
      /\ (exists s, st (Nf p) = Some s /\ system ev (seq 0 (Nf p)) = (0, 0, 0, sqrt s)%R)
      /\ (forall k, k < Nf p -> on_shell (mass_of p k) (ev k))
      /\ forall i n, nth_error ns i = Some n -> st (i + Nf p) = Some (inv_mass ev (lfs n) (rfs n)).
  Proof.
    intros C U B Sd. destruct B as [Bl Br Brep Blv Ball Brefs Bp Bpr].
    assert (ND : NoDup (leaves t)) by (eapply Permutation_NoDup; [symmetry; exact Blv|apply C]).
    destruct (fills_ok (Nf p) (mass_of p) u U ns st t k0 Brep Sd ND Ball ns 0) as (ev & k & E & D); auto.
    exists ev, k. split; [exact E|].
    destruct t as [j|i a b].
    { exfalso. cbn [ref] in Br. cbn [rep] in Brep. lia. }
    cbn [ref] in Br. assert (i = 0) by lia. subst i. cbn [done Nat.leb] in D. destruct D as [(s & Es & Rs) M].
    split; [|split].
    - exists s. split; auto. rewrite <- (system_perm ev (leaves (B 0 a b))); [exact Rs|]. rewrite Blv. apply finals_seq; auto.
    - intros k1 K. eapply masses_leaf; [exact M|]. eapply Permutation_in; [symmetry; exact Blv|]. apply finals_all; auto.
    - intros i n En. rewrite inv_mass_system. eapply masses_idx; eauto. apply Ball. apply nth_error_Some. congruence.
  Qed.
End Main.
