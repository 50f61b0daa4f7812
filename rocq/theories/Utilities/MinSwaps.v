From Verif.Common Require Import Prelude.
From Verif.Utilities Require Import Model Spec.
From Coq Require Import Permutation Sorted.

(** * Vectors *)
Lemma set_nth_length {A} n (x : A) l : List.length (set_nth n x l) = List.length l.
Proof. revert n; induction l as [|y l IH]; intros [|n]; simpl; auto. Qed.

Lemma nth_set_nth {A} n m (x d : A) l : n < List.length l ->
  nth m (set_nth n x l) d = if Nat.eqb m n then x else nth m l d.
Proof.
  revert n m; induction l as [|y l IH]; intros n m H; simpl in H; [lia|].
  destruct n as [|n], m as [|m]; simpl; try reflexivity. apply IH. lia.
Qed.

Lemma nth_error_nth' {A} (l : list A) n d : n < List.length l -> nth_error l n = Some (nth n l d).
Proof. revert n; induction l as [|x l IH]; intros [|n] H; simpl in *; try lia; [reflexivity|apply IH; lia]. Qed.

(** * Transpositions along a cycle *)
Definition compose (ps : list (nat * nat)) (x : nat) : nat :=
  fold_right (fun p y => transpose (fst p) (snd p) y) x ps.

Lemma compose_app p q x : compose (p ++ q) x = compose p (compose q x).
Proof. unfold compose. now rewrite fold_right_app. Qed.

Fixpoint nxt (h : nat) (c : list nat) (x : nat) : nat :=
  match c with
  | [] => x
  | a :: t => match t with
      | [] => if Nat.eqb x a then h else x
      | b :: _ => if Nat.eqb x a then b else nxt h t x
      end
  end.

Fixpoint adj (c : list nat) : list (nat * nat) :=
  match c with
  | a :: t => match t with [] => [] | b :: _ => (a, b) :: adj t end
  | [] => []
  end.

Lemma adj_length c : List.length (adj c) = List.length c - 1.
Proof. induction c as [|a [|b t] IH]; try reflexivity. cbn [adj List.length] in *. lia. Qed.

Lemma transpose_l i j : transpose i j i = j.
Proof. unfold transpose. now rewrite Nat.eqb_refl. Qed.
Lemma transpose_r i j : transpose i j j = i.
Proof. unfold transpose. rewrite Nat.eqb_refl. destruct (Nat.eqb_spec j i); congruence. Qed.
Lemma transpose_o i j k : k <> i -> k <> j -> transpose i j k = k.
Proof. intros H1 H2. unfold transpose. apply Nat.eqb_neq in H1, H2. now rewrite H1, H2. Qed.

Lemma nxt_change a b x c : c <> [] -> ~ In a c -> ~ In b (tl c) -> x <> a -> (~ In x c -> x <> b) ->
  transpose a b (nxt b c x) = nxt a c x.
Proof.
  induction c as [|y c IH]; intros Hne Ha Hb Hx Hxb; [contradiction|].
  destruct c as [|z c].
  - simpl. destruct (Nat.eqb_spec x y) as [->|N]; [apply transpose_r|].
    apply transpose_o; [assumption|]. apply Hxb. intros [K|[]]. congruence.
  - cbn [nxt]. destruct (Nat.eqb_spec x y) as [->|N].
    + apply transpose_o; intros ->; [apply Ha|apply Hb]; simpl; tauto.
    + apply IH; [discriminate| | |assumption|].
      * intro K. apply Ha. now right.
      * intro K. apply Hb. simpl. right. exact K.
      * intro K. apply Hxb. intros [E|E]; [congruence|contradiction].
Qed.

Lemma nxt_out h c x : ~ In x c -> nxt h c x = x.
Proof.
  induction c as [|a [|b t] IH]; intro H; [reflexivity| |].
  - simpl. destruct (Nat.eqb_spec x a) as [->|]; [exfalso; apply H; now left|reflexivity].
  - cbn [nxt]. destruct (Nat.eqb_spec x a) as [->|]; [exfalso; apply H; now left|].
    apply IH. intro K. apply H. now right.
Qed.

Lemma compose_adj c : NoDup c -> forall x, compose (adj c) x = nxt (hd 0 c) c x.
Proof.
  induction c as [|a [|b t] IH]; intros ND x; [reflexivity| |].
  - simpl. destruct (Nat.eqb_spec x a); congruence.
  - inversion ND as [|? ? Ha ND']; subst. inversion ND' as [|? ? Hb _]; subst.
    change (compose (adj (a :: b :: t)) x) with (transpose a b (compose (adj (b :: t)) x)).
    rewrite (IH ND' x). cbn [hd].
    destruct (Nat.eqb_spec x a) as [->|N].
    + rewrite (nxt_out b (b :: t) a Ha). cbn [nxt]. rewrite Nat.eqb_refl. apply transpose_l.
    + replace (nxt a (a :: b :: t) x) with (nxt a (b :: t) x).
      2:{ cbn [nxt]. apply Nat.eqb_neq in N. now rewrite N. }
      apply nxt_change; try assumption; [discriminate|]. intros K ->. apply K. now left.
Qed.

Section Perm.
  Variable n : nat.
  Variable pos : list nat.
  Hypothesis Hlen : List.length pos = n.
  Let s k := nth k pos 0.
  Hypothesis Hrange : forall k, k < n -> s k < n.
  Hypothesis Hinj : forall j k, j < n -> k < n -> s j = s k -> j = k.

  Definition chain (p : list nat) (j : nat) : Prop := map s p = tl p ++ [j].
  Definition cycle (c : list nat) : Prop :=
    2 <= List.length c /\ NoDup c /\ Forall (fun x => x < n) c /\ chain c (hd 0 c).

  Lemma chain_nonempty p j : chain p j -> p <> [].
  Proof. intros H ->. discriminate. Qed.

  Lemma chain_snoc p j : chain p j -> chain (p ++ [j]) (s j).
  Proof.
    intro H. pose proof (chain_nonempty _ _ H) as Hne. unfold chain in *.
    rewrite map_app, H. destruct p; [contradiction|]. reflexivity.
  Qed.

  Lemma chain_pred p j : chain p j -> exists x, In x p /\ s x = j.
  Proof.
    intro H. assert (K : In j (map s p)) by (rewrite H; apply in_or_app; right; now left).
    apply in_map_iff in K as (x & E & Hx). now exists x.
  Qed.

  Lemma NoDup_map_s p : NoDup p -> Forall (fun x => x < n) p -> NoDup (map s p).
  Proof.
    induction 1 as [|x p Hx _ IH]; intro F; simpl; constructor; inversion F as [|? ? Fx Fp]; subst.
    - intro K. apply in_map_iff in K as (y & E & Hy). rewrite Forall_forall in Fp.
      apply Hinj in E; [|auto|auto]. now subst.
    - auto.
  Qed.

  Lemma chain_closes p j : chain p j -> NoDup p -> Forall (fun x => x < n) p -> In j p -> j = hd 0 p.
  Proof.
    intros H ND F Hj. pose proof (NoDup_map_s p ND F) as K. rewrite H in K.
    destruct p as [|a t]; [destruct Hj|]. destruct Hj as [->|Hj]; [reflexivity|]. exfalso. simpl in K.
    apply NoDup_remove_2 in K. apply K. rewrite app_nil_r. exact Hj.
  Qed.

  Lemma nxt_chain h c x : chain c h -> In x c -> nxt h c x = s x.
  Proof.
    unfold chain. induction c as [|a [|b t] IH]; intros H Hx; [destruct Hx| |].
    - destruct Hx as [->|[]]. simpl in *. rewrite Nat.eqb_refl. injection H as ->. reflexivity.
    - cbn [nxt]. simpl map in *. simpl tl in *. simpl app in H. injection H as H1 H2.
      destruct (Nat.eqb_spec x a) as [->|N]; [now symmetry|].
      apply IH; [|destruct Hx; [congruence|assumption]]. simpl. exact H2.
  Qed.

  Lemma cycle_closed c x : cycle c -> x < n -> (In x c <-> In (s x) c).
  Proof.
    intros (L & ND & F & H) Hx. destruct c as [|a t]; [simpl in L; lia|].
    assert (M : forall y, In y (map s (a :: t)) <-> In y (a :: t)).
    { intro y. rewrite H. simpl. rewrite in_app_iff. simpl. tauto. }
    split.
    - intro K. apply M. now apply in_map.
    - intro K. apply M in K. apply in_map_iff in K as (y & E & Hy).
      rewrite Forall_forall in F. apply Hinj in E; [now subst|auto|assumption].
  Qed.

  Lemma cycle_compose c x : cycle c -> In x c -> compose (adj c) x = s x.
  Proof. intros (L & ND & F & H) Hx. rewrite compose_adj by assumption. now apply nxt_chain. Qed.

  Lemma compose_adj_out c x : cycle c -> ~ In x c -> compose (adj c) x = x.
  Proof. intros (L & ND & F & H) Hx. rewrite compose_adj by assumption. now apply nxt_out. Qed.

  (** The set of visited places. *)
  Definition vis (V : list bool) (x : nat) : bool := nth x V false.
  Definition shows (V : list bool) (S0 : nat -> Prop) : Prop :=
    List.length V = n /\ forall x, x < n -> (vis V x = true <-> S0 x).

  Lemma NoDup_bound p : NoDup p -> Forall (fun x => x < n) p -> List.length p <= n.
  Proof.
    intros ND F. rewrite <- (seq_length n 0). apply NoDup_incl_length; [assumption|].
    intros x Hx. rewrite Forall_forall in F. apply in_seq. specialize (F x Hx). lia.
  Qed.

  Lemma cycle_walk_correct (S0 : nat -> Prop) i :
    (forall x, x < n -> (S0 x <-> S0 (s x))) -> i < n -> ~ S0 i -> s i <> i ->
    forall fuel p j V,
      (p = [] /\ j = i \/ chain p j /\ hd 0 p = i) -> j < n ->
      NoDup p -> Forall (fun x => x < n) p -> Forall (fun x => ~ S0 x) p ->
      shows V (fun x => S0 x \/ In x p) -> n <= fuel + List.length p ->
      exists c V', cycle_walk fuel pos V j (List.length p) = Ok (V', List.length c) /\
        cycle c /\ hd 0 c = i /\ Forall (fun x => ~ S0 x) c /\ shows V' (fun x => S0 x \/ In x c).
  Proof.
    intros Hclosed Hi HiS Hsi. induction fuel as [|f IH]; intros p j V Hp Hj ND F FS HV Hf;
      destruct HV as [LV HV]; (destruct (vis V j) eqn:Ev; unfold vis in Ev);
      cbn [cycle_walk]; rewrite (nth_error_nth' V j false), Ev by (rewrite LV; assumption).
    - (* visited, no fuel *)
      exists p, V. split; [reflexivity|]. apply HV in Ev; [|assumption].
      destruct Hp as [[-> ->]|[Hc Hh]]; [exfalso; destruct Ev as [K|[]]; contradiction|].
      assert (Hin : In j p).
      { destruct Ev as [K|K]; [|exact K]. exfalso. destruct (chain_pred _ _ Hc) as (x & Hx & <-).
        rewrite Forall_forall in F, FS. apply Hclosed in K; [|now apply F]. now apply (FS x). }
      pose proof (chain_closes _ _ Hc ND F Hin) as Ej.
      repeat split; try assumption; [|now rewrite <- Ej| |].
      + destruct p as [|a [|b t]]; [destruct Hin| |simpl; lia]. exfalso. simpl in Hh, Ej. subst.
        unfold chain in Hc. simpl in Hc. injection Hc as K. congruence.
      + now apply HV.
      + now apply HV.
    - (* not visited, no fuel: impossible *)
      exfalso. assert (Hnin : ~ In j p) by (intro K; assert (vis V j = true) by (apply HV; [assumption|now right]); unfold vis in *; congruence).
      assert (NoDup (p ++ [j])) as ND2.
      { apply NoDup_rev in ND. rewrite <- (rev_involutive (p ++ [j])). apply NoDup_rev. rewrite rev_app_distr. simpl.
        constructor; [rewrite <- in_rev; assumption|assumption]. }
      pose proof (NoDup_bound _ ND2 ltac:(apply Forall_app; split; [assumption|constructor; [assumption|constructor]])) as K.
      rewrite app_length in K. simpl in K. lia.
    - exists p, V. split; [reflexivity|]. apply HV in Ev; [|assumption].
      destruct Hp as [[-> ->]|[Hc Hh]]; [exfalso; destruct Ev as [K|[]]; contradiction|].
      assert (Hin : In j p).
      { destruct Ev as [K|K]; [|exact K]. exfalso. destruct (chain_pred _ _ Hc) as (x & Hx & <-).
        rewrite Forall_forall in F, FS. apply Hclosed in K; [|now apply F]. now apply (FS x). }
      pose proof (chain_closes _ _ Hc ND F Hin) as Ej.
      repeat split; try assumption; [|now rewrite <- Ej| |].
      + destruct p as [|a [|b t]]; [destruct Hin| |simpl; lia]. exfalso. simpl in Hh, Ej. subst.
        unfold chain in Hc. simpl in Hc. injection Hc as K. congruence.
      + now apply HV.
      + now apply HV.
    - rewrite (nth_error_nth' pos j 0) by (rewrite Hlen; assumption).
      assert (HS : ~ S0 j) by (intro K; assert (vis V j = true) by (apply HV; [assumption|now left]); unfold vis in *; congruence).
      assert (Hnin : ~ In j p) by (intro K; assert (vis V j = true) by (apply HV; [assumption|now right]); unfold vis in *; congruence).
      assert (El : S (List.length p) = List.length (p ++ [j])) by (rewrite app_length; simpl; lia).
      rewrite El. apply IH.
      + right. destruct Hp as [[-> ->]|[Hc Hh]].
        * split; reflexivity.
        * split; [exact (chain_snoc _ _ Hc)|]. pose proof (chain_nonempty _ _ Hc). destruct p; [contradiction|exact Hh].
      + now apply Hrange.
      + apply NoDup_rev in ND. rewrite <- (rev_involutive (p ++ [j])). apply NoDup_rev. rewrite rev_app_distr. simpl.
        constructor; [rewrite <- in_rev; assumption|assumption].
      + apply Forall_app; split; [assumption|constructor; [assumption|constructor]].
      + apply Forall_app; split; [assumption|constructor; [assumption|constructor]].
      + split; [now rewrite set_nth_length|]. intros x Hx. unfold vis. rewrite nth_set_nth by now rewrite LV.
        destruct (Nat.eqb_spec x j) as [->|N].
        * split; [intros _; right; apply in_or_app; right; now left|reflexivity].
        * fold (vis V x). rewrite (HV x Hx), in_app_iff. simpl. intuition congruence.
      + rewrite <- El. lia.
  Qed.

  Definition total (C : list (list nat)) : nat := list_sum (map (fun c => List.length c - 1) C).
  Definition parity (par : list Z) (C : list (list nat)) : Z :=
    fold_right Z.mul 1%Z (map (fun c => nth (hd 0 c) par 1%Z) C).

  Definition family (C : list (list nat)) : Prop := Forall cycle C /\ NoDup (List.concat C).

  Lemma family_closed C x : family C -> x < n -> (In x (List.concat C) <-> In (s x) (List.concat C)).
  Proof.
    intros [F _] Hx. rewrite !in_concat. rewrite Forall_forall in F. split; intros (c & Hc & K); exists c; (split; [assumption|]); apply (cycle_closed c x); auto.
  Qed.

  Lemma swaps_loop_correct par : n <= List.length par -> forall is C V ans net,
    Forall (fun i => i < n) is -> family C -> shows V (fun x => In x (List.concat C)) ->
    exists C', swaps_loop n pos par is V ans net = Ok (ans + total C', (net * parity par C')%Z) /\
      family (C' ++ C) /\ (forall x, In x is -> s x = x \/ In x (List.concat (C' ++ C))).
  Proof.
    intro Hpar. induction is as [|i is IH]; intros C V ans net Fi HC HV.
    - exists []. split; [|split; [assumption|intros x []]]. simpl. unfold total, parity. simpl. rewrite Nat.add_0_r, Z.mul_1_r. reflexivity.
    - pose proof (Forall_inv Fi) as Hi; cbv beta in Hi. pose proof (Forall_inv_tail Fi) as Fi'. cbn [swaps_loop]. destruct HV as [LV HV].
      rewrite (nth_error_nth' V i false) by (rewrite LV; assumption).
      rewrite (nth_error_nth' pos i 0) by (rewrite Hlen; assumption). fold (vis V i). fold (s i).
      destruct (vis V i || Nat.eqb (s i) i) eqn:Eg.
      + destruct (IH C V ans net Fi' HC (conj LV HV)) as (C' & E & HF & Hcov). exists C'. split; [exact E|split; [assumption|]].
        intros x [<-|Hx]; [|auto]. apply orb_true_iff in Eg as [K|K].
        * right. apply (HV i Hi) in K. rewrite concat_app, in_app_iff. now right.
        * left. now apply Nat.eqb_eq.
      + apply orb_false_iff in Eg as [Ev Es]. apply Nat.eqb_neq in Es.
        assert (HiS : ~ In i (List.concat C)) by (intro K; apply (HV i Hi) in K; congruence).
        destruct (cycle_walk_correct (fun x => In x (List.concat C)) i (fun x Hx => family_closed C x HC Hx) Hi HiS Es
          n [] i V) as (c & V' & E & Hc & Hh & FS & HV').
        { now left. } { assumption. } { constructor. } { constructor. } { constructor. }
        { split; [assumption|]. intros x Hx. rewrite (HV x Hx). simpl. tauto. } { simpl. lia. }
        simpl List.length in E. rewrite E. cbn [bind].
        pose proof Hc as (L2 & NDc & Fc & Chc).
        destruct (Nat.ltb_spec 0 (List.length c)) as [_|K]; [|lia].
        rewrite (nth_error_nth' par i 1%Z) by lia.
        assert (HC2 : family (c :: C)).
        { destruct HC as [F ND]. split; [now constructor|]. simpl.
          rewrite Forall_forall in FS. clear -NDc ND FS. induction c as [|x c IHc]; [exact ND|].
          inversion NDc as [|? ? Hx NDc']; subst. simpl. constructor.
          - rewrite in_app_iff. intros [K|K]; [contradiction|]. apply (FS x); [now left|assumption].
          - apply IHc; try assumption. intros y Hy. apply FS. now right. }
        destruct (IH (c :: C) V' (ans + (List.length c - 1)) (net * nth i par 1%Z)%Z Fi' HC2) as (C' & E2 & HF & Hcov).
        { destruct HV' as [LV' HV']. split; [assumption|]. intros x Hx. rewrite (HV' x Hx). simpl. rewrite in_app_iff. tauto. }
        exists (C' ++ [c]). rewrite <- app_assoc. simpl app. split; [|split; [assumption|]].
        * rewrite E2. f_equal. f_equal.
          -- unfold total. rewrite map_app, list_sum_app. simpl. lia.
          -- unfold parity. rewrite map_app, fold_right_app. simpl. rewrite Hh.
             assert (G : forall l x, (fold_right Z.mul x l = fold_right Z.mul 1 l * x)%Z).
             { induction l as [|y l IHl]; intro x; cbn [fold_right]; [ring|]. rewrite IHl. ring. }
             rewrite (G _ (nth i par 1 * 1)%Z). ring.
        * intros x [<-|Hx]; [|auto]. right. rewrite concat_app. apply in_or_app. right. simpl. apply in_or_app. left.
          rewrite <- Hh. destruct c; [simpl in L2; lia|now left].
  Qed.

  (** Exchanges along all cycles compose to the permutation. *)
  Lemma family_compose C : family C -> forall x, x < n ->
    compose (List.concat (map adj C)) x = if in_dec Nat.eq_dec x (List.concat C) then s x else x.
  Proof.
    induction C as [|c C IH]; intros [F ND] x Hx; [reflexivity|].
    pose proof (Forall_inv F) as Hc. pose proof (Forall_inv_tail F) as F'. simpl in ND.
    assert (ND' : NoDup (List.concat C)) by (clear -ND; induction c; [assumption|inversion ND; auto]).
    assert (Hdis : forall y, In y c -> ~ In y (List.concat C)).
    { clear -ND. induction c as [|a c IHc]; intros y Hy K; [destruct Hy|]. simpl in ND. inversion ND as [|? ? Ha ND2]; subst.
      destruct Hy as [<-|Hy]; [apply Ha, in_or_app; now right|now apply (IHc ND2 y)]. }
    simpl map. simpl List.concat. rewrite compose_app, (IH (conj F' ND') x Hx).
    destruct (in_dec Nat.eq_dec x (List.concat C)) as [K|K].
    - destruct (in_dec Nat.eq_dec x (c ++ List.concat C)) as [_|N]; [|exfalso; apply N, in_or_app; now right].
      apply compose_adj_out; [assumption|]. intro Q. apply (Hdis _ Q). now apply (family_closed C x (conj F' ND') Hx).
    - destruct (in_dec Nat.eq_dec x (c ++ List.concat C)) as [Y|N].
      + apply in_app_or in Y as [Y|Y]; [|contradiction]. now apply cycle_compose.
      + apply compose_adj_out; [assumption|]. intro Q. apply N, in_or_app. now left.
  Qed.

  Lemma adj_in c p : In p (adj c) -> In (fst p) c /\ In (snd p) c.
  Proof.
    induction c as [|a [|b t] IH]; intro H; [destruct H|destruct H|]. cbn [adj] in H.
    destruct H as [<-|H]; [simpl; tauto|]. apply IH in H as [H1 H2]. split; now right.
  Qed.

  Lemma total_length C : List.length (List.concat (map adj C)) = total C.
  Proof.
    unfold total. induction C as [|c C IH]; [reflexivity|]. simpl. rewrite app_length, IH, adj_length. reflexivity.
  Qed.

  (** Lower bound: labels constant along every exchange. *)
  Lemma labels (ps : list (nat * nat)) : Forall (fun p => fst p < n /\ snd p < n) ps ->
    exists f : nat -> nat, (forall x, f (compose ps x) = f x) /\
      n <= List.length (nodup Nat.eq_dec (map f (seq 0 n))) + List.length ps.
  Proof.
    induction ps as [|[i j] ps IH]; intro F.
    - exists (fun x => x). split; [reflexivity|]. rewrite map_id.
      rewrite nodup_fixed_point by apply seq_NoDup. rewrite seq_length. simpl. lia.
    - pose proof (Forall_inv F) as [Hi Hj]. pose proof (Forall_inv_tail F) as F'. simpl in Hi, Hj. destruct (IH F') as (f & Hf & L).
      exists (fun x => if Nat.eqb (f x) (f i) then f j else f x). split.
      + intro x. cbn [compose fold_right fst snd]. fold (compose ps x). rewrite <- (Hf x). unfold transpose.
        destruct (Nat.eqb_spec (compose ps x) i) as [->|Ni].
        * rewrite Nat.eqb_refl. destruct (Nat.eqb_spec (f j) (f i)); congruence.
        * destruct (Nat.eqb_spec (compose ps x) j) as [->|Nj]; [|reflexivity].
          rewrite Nat.eqb_refl. destruct (Nat.eqb_spec (f j) (f i)); congruence.
      + set (L1 := nodup Nat.eq_dec (map f (seq 0 n))) in *.
        set (L2 := nodup Nat.eq_dec (map _ (seq 0 n))).
        assert (Hinc : incl (remove Nat.eq_dec (f i) L1) L2).
        { intros y Hy. apply in_remove in Hy as [Hy Ny]. unfold L1 in Hy. apply nodup_In in Hy.
          apply in_map_iff in Hy as (x & <- & Hx). unfold L2. apply nodup_In. apply in_map_iff. exists x. split; [|assumption].
          apply Nat.eqb_neq in Ny. now rewrite Ny. }
        assert (HND : NoDup (remove Nat.eq_dec (f i) L1)).
        { assert (G : forall l a, NoDup l -> NoDup (remove Nat.eq_dec a l)).
          { clear. intros l a. induction 1 as [|x l Hx _ IH]; simpl; [constructor|].
            destruct (Nat.eq_dec a x); [assumption|]. constructor; [|assumption]. intro K. apply in_remove in K as [K _]. contradiction. }
          apply G, NoDup_nodup. }
        pose proof (NoDup_incl_length HND Hinc) as K.
        assert (R : List.length L1 <= S (List.length (remove Nat.eq_dec (f i) L1))).
        { assert (G : forall l a, NoDup l -> List.length l <= S (List.length (remove Nat.eq_dec a l))).
          { clear. intros l a. induction 1 as [|x l Hx _ IH]; simpl; [lia|].
            destruct (Nat.eq_dec a x) as [->|]; [|simpl; lia]. rewrite notin_remove by assumption. lia. }
          apply G, NoDup_nodup. }
        simpl. lia.
  Qed.

  Lemma rot_const (l : list nat) x : l ++ [x] = x :: l -> Forall (fun y => y = x) l.
  Proof.
    induction l as [|y l IH]; intro H; constructor; simpl in H; injection H as E H; [assumption|].
    subst. now apply IH.
  Qed.

  Lemma cycle_label c (f : nat -> nat) : cycle c -> (forall x, x < n -> f (s x) = f x) -> forall x, In x c -> f x = f (hd 0 c).
  Proof.
    intros (L & ND & F & H) Hf x Hx. destruct c as [|a t]; [destruct Hx|].
    unfold chain in H. cbn [hd tl] in *.
    assert (E : map f (map s (a :: t)) = map f (a :: t)).
    { rewrite map_map. apply map_ext_in. intros y Hy. apply Hf. rewrite Forall_forall in F. auto. }
    rewrite H, map_app in E. simpl in E. apply rot_const in E. rewrite Forall_forall in E.
    destruct Hx as [->|Hx]; [reflexivity|]. apply E. now apply in_map.
  Qed.

  Lemma concat_total C : Forall cycle C -> total C + List.length C = List.length (List.concat C).
  Proof.
    unfold total. induction 1 as [|c C Hc _ IH]; [reflexivity|]. simpl. rewrite app_length, <- IH.
    destruct Hc as (L & _). lia.
  Qed.

  Lemma family_lower C : family C -> (forall x, x < n -> s x = x \/ In x (List.concat C)) ->
    forall ps, Forall (fun p => fst p < n /\ snd p < n) ps -> (forall x, x < n -> compose ps x = s x) ->
    total C <= List.length ps.
  Proof.
    intros [F ND] Hcov ps Fps Hps. destruct (labels ps Fps) as (f & Hf & L).
    assert (Hfs : forall x, x < n -> f (s x) = f x) by (intros x Hx; rewrite <- Hps by assumption; apply Hf).
    set (rest := filter (fun x => if in_dec Nat.eq_dec x (List.concat C) then false else true) (seq 0 n)).
    set (R := map (hd 0) C ++ rest).
    assert (Hinc : incl (nodup Nat.eq_dec (map f (seq 0 n))) (map f R)).
    { intros y Hy. apply nodup_In in Hy. apply in_map_iff in Hy as (x & <- & Hx). unfold R. rewrite map_app. apply in_or_app.
      destruct (in_dec Nat.eq_dec x (List.concat C)) as [K|K].
      - left. apply in_concat in K as (c & Hc & Kx). rewrite Forall_forall in F.
        rewrite (cycle_label c f (F c Hc) Hfs x Kx). apply in_map. now apply in_map.
      - right. apply in_map. unfold rest. apply filter_In. split; [assumption|]. destruct (in_dec Nat.eq_dec x (List.concat C)); [contradiction|reflexivity]. }
    pose proof (NoDup_incl_length (NoDup_nodup Nat.eq_dec _) Hinc) as K.
    unfold R in K. rewrite map_length, app_length, map_length in K.
    assert (Hrest : List.length rest + List.length (List.concat C) <= n).
    { rewrite <- app_length. apply NoDup_bound.
      - assert (G : forall a b : list nat, NoDup a -> NoDup b -> (forall x, In x a -> ~ In x b) -> NoDup (a ++ b)).
        { clear. induction a as [|x a IH]; intros b Na Nb H; [assumption|]. inversion Na; subst. simpl. constructor.
          - rewrite in_app_iff. intros [K|K]; [contradiction|]. apply (H x); [now left|assumption].
          - apply IH; [assumption|assumption|]. intros y Hy. apply H. now right. }
        apply G; [apply NoDup_filter, seq_NoDup|assumption|].
        intros x Hx. unfold rest in Hx. apply filter_In in Hx as [_ Hx]. destruct (in_dec Nat.eq_dec x (List.concat C)); [discriminate|assumption].
      - apply Forall_app. split.
        + rewrite Forall_forall. intros x Hx. apply filter_In in Hx as [Hx _]. apply in_seq in Hx. lia.
        + rewrite Forall_forall. intros x Hx. apply in_concat in Hx as (c & Hc & Kx). rewrite Forall_forall in F.
          destruct (F c Hc) as (_ & _ & Fc & _). rewrite Forall_forall in Fc. auto. }
    pose proof (concat_total C F). lia.
  Qed.
End Perm.

(** * The sorted positions of a permutation are its inverse *)

Lemma insert_pair_perm p l : Permutation (insert_pair p l) (p :: l).
Proof.
  induction l as [|q l IH]; simpl; [reflexivity|]. destruct (pair_leb p q); [reflexivity|].
  rewrite IH. apply perm_swap.
Qed.

Lemma sort_pairs_perm l : Permutation (sort_pairs l) l.
Proof. induction l as [|p l IH]; simpl; [reflexivity|]. rewrite insert_pair_perm. now constructor. Qed.

Definition fst_le (p q : nat * nat) := fst p <= fst q.

Lemma pair_leb_fst p q : pair_leb p q = true -> fst_le p q.
Proof. unfold pair_leb, fst_le. rewrite orb_true_iff, andb_true_iff, Nat.ltb_lt, Nat.eqb_eq. lia. Qed.
Lemma pair_leb_fst' p q : pair_leb p q = false -> fst_le q p.
Proof. unfold pair_leb, fst_le. rewrite orb_false_iff, Nat.ltb_ge. lia. Qed.

Lemma insert_pair_sorted p l : StronglySorted fst_le l -> StronglySorted fst_le (insert_pair p l).
Proof.
  induction 1 as [|q l Hl IH Hq]; simpl; [repeat constructor|].
  destruct (pair_leb p q) eqn:E.
  - constructor; [now constructor|]. apply pair_leb_fst in E. constructor; [assumption|].
    eapply Forall_impl; [|exact Hq]. unfold fst_le in *. intros; lia.
  - constructor; [assumption|]. apply pair_leb_fst' in E.
    apply (Permutation_Forall (Permutation_sym (insert_pair_perm p l))). now constructor.
Qed.

Lemma sort_pairs_sorted l : StronglySorted fst_le (sort_pairs l).
Proof. induction l as [|p l IH]; simpl; [constructor|]. now apply insert_pair_sorted. Qed.

Lemma sorted_seq l : forall a n, StronglySorted le l -> Permutation l (seq a n) -> l = seq a n.
Proof.
  induction l as [|x l IH]; intros a n Hs Hp.
  - apply Permutation_nil in Hp. now symmetry.
  - destruct n as [|n]; [apply Permutation_sym, Permutation_nil in Hp; discriminate|].
    inversion Hs as [|? ? Hl Hx]; subst. simpl in *.
    assert (x = a).
    { assert (Ha : In a (x :: l)) by (apply (Permutation_in _ (Permutation_sym Hp)); now left).
      assert (Hx2 : In x (a :: seq (S a) n)) by (apply (Permutation_in _ Hp); now left).
      assert (a <= x) by (destruct Hx2 as [->|K]; [lia|apply in_seq in K; lia]).
      destruct Ha as [->|Ha]; [reflexivity|]. rewrite Forall_forall in Hx. apply Hx in Ha. lia. }
    subst. f_equal. apply IH; [assumption|]. now apply Permutation_cons_inv in Hp.
Qed.

Lemma map_fst_combine {A B} (l : list A) (m : list B) : List.length l = List.length m -> map fst (combine l m) = l.
Proof. revert m; induction l as [|x l IH]; intros [|y m] H; simpl in *; try discriminate; [reflexivity|]. f_equal. apply IH. lia. Qed.

Lemma sorted_map_fst l : StronglySorted fst_le l -> StronglySorted le (map fst l).
Proof.
  induction 1 as [|p l Hl IH Hp]; simpl; constructor; [assumption|].
  rewrite Forall_forall in *. intros x Hx. apply in_map_iff in Hx as (q & <- & Hq). now apply Hp.
Qed.

Lemma in_combine_nth (l : list nat) : forall a x i, In (x, i) (combine l (seq a (List.length l))) -> a <= i < a + List.length l /\ nth (i - a) l 0 = x.
Proof.
  induction l as [|y l IH]; intros a x i H; simpl in *; [destruct H|].
  destruct H as [H|H].
  - injection H as <- <-. rewrite Nat.sub_diag. split; [lia|reflexivity].
  - apply IH in H as [H1 H2]. split; [lia|]. replace (i - a) with (S (i - S a)) by lia. exact H2.
Qed.

Lemma arrPos_length a : List.length (arrPos a) = List.length a.
Proof.
  unfold arrPos. rewrite map_length, (Permutation_length (sort_pairs_perm _)), combine_length, seq_length. lia.
Qed.

Lemma arrPos_inverse a : Permutation a (seq 0 (List.length a)) -> forall k, k < List.length a ->
  nth k (arrPos a) 0 < List.length a /\ nth (nth k (arrPos a) 0) a 0 = k.
Proof.
  intros Hp k Hk. unfold arrPos. set (ps := sort_pairs _).
  assert (Efst : map fst ps = seq 0 (List.length a)).
  { apply sorted_seq; [apply sorted_map_fst, sort_pairs_sorted|].
    eapply Permutation_trans; [apply Permutation_map, sort_pairs_perm|].
    rewrite map_fst_combine by now rewrite seq_length. exact Hp. }
  assert (Lps : List.length ps = List.length a) by (rewrite <- (map_length fst), Efst, seq_length; reflexivity).
  assert (Hin : In (nth k ps (0, 0)) ps) by (apply nth_In; lia).
  assert (Ek : fst (nth k ps (0, 0)) = k).
  { rewrite <- (map_nth fst). rewrite Efst. simpl. now rewrite seq_nth. }
  assert (Es : nth k (map snd ps) 0 = snd (nth k ps (0, 0))) by exact (map_nth snd ps (0, 0) k).
  rewrite Es.
  destruct (nth k ps (0, 0)) as [x i] eqn:E. simpl in Ek |- *. subst x.
  apply (Permutation_in _ (sort_pairs_perm _)) in Hin. apply in_combine_nth in Hin as [H1 H2].
  rewrite Nat.sub_0_r in H2. simpl in H1. split; [lia|exact H2].
Qed.

Lemma transpose_lt i j k n : i < n -> j < n -> k < n -> transpose i j k < n.
Proof. unfold transpose. destruct (Nat.eqb k i), (Nat.eqb k j); auto. Qed.

Lemma compose_lt ps n : Forall (fun p => fst p < n /\ snd p < n) ps -> forall x, x < n -> compose ps x < n.
Proof.
  induction 1 as [|[i j] ps [Hi Hj] _ IH]; intros x Hx; [assumption|]. apply transpose_lt; auto. now apply IH.
Qed.

Lemma exchanges_nth n ps : Forall (fun p => fst p < n /\ snd p < n) ps -> forall a, List.length a = n ->
  List.length (exchanges n ps a) = n /\ forall k, k < n -> nth k (exchanges n ps a) 0 = nth (compose ps k) a 0.
Proof.
  induction 1 as [|[i j] ps [Hi Hj] F IH]; intros a La; [split; [assumption|reflexivity]|].
  cbn [exchanges fold_left].
  assert (Lx : List.length (exchange n (i, j) a) = n) by (unfold exchange; rewrite map_length, seq_length; reflexivity).
  destruct (IH _ Lx) as [H1 H2]. split; [exact H1|]. intros k Hk. unfold exchanges in H2. rewrite (H2 k Hk).
  unfold exchange. pose proof (compose_lt ps n F k Hk) as Hc.
  set (g := fun k0 => nth (transpose (fst (i, j)) (snd (i, j)) k0) a 0).
  rewrite (nth_indep _ 0 (g 0)) by (rewrite map_length, seq_length; assumption). rewrite map_nth, seq_nth by assumption.
  unfold g. simpl. reflexivity.
Qed.

Lemma perm_inj a : Permutation a (seq 0 (List.length a)) -> forall i j, i < List.length a -> j < List.length a ->
  nth i a 0 = nth j a 0 -> i = j.
Proof.
  intros Hp i j Hi Hj E. assert (ND : NoDup a) by (apply (Permutation_NoDup (Permutation_sym Hp)), seq_NoDup).
  apply (proj1 (NoDup_nth a 0) ND i j Hi Hj E).
Qed.

Lemma sorts_compose a ps : Permutation a (seq 0 (List.length a)) ->
  sorts ps a <-> Forall (fun p => fst p < List.length a /\ snd p < List.length a) ps /\
     (forall k, k < List.length a -> compose ps k = nth k (arrPos a) 0).
Proof.
  intro Hp. unfold sorts. split; intros [F H]; (split; [assumption|]).
  - intros k Hk. destruct (exchanges_nth _ _ F a eq_refl) as [_ E]. specialize (E k Hk). rewrite H, seq_nth in E by assumption.
    destruct (arrPos_inverse a Hp k Hk) as [H1 H2]. apply (perm_inj a Hp); [now apply compose_lt|assumption|]. rewrite H2, <- E. reflexivity.
  - destruct (exchanges_nth _ _ F a eq_refl) as [L E]. apply (nth_ext _ _ 0 0); [now rewrite seq_length|].
    intros k Hk. rewrite L in Hk. rewrite E, seq_nth by assumption. rewrite H by assumption. now apply arrPos_inverse.
Qed.

Lemma minSwaps_structure a par : Permutation a (seq 0 (List.length a)) -> List.length a <= List.length par ->
  exists C, minSwaps a par = Ok (total C, parity par C) /\
    family (List.length a) (arrPos a) C /\
    (forall x, x < List.length a -> nth x (arrPos a) 0 = x \/ In x (List.concat C)).
Proof.
  intros Hp Hpar. set (n := List.length a).
  assert (Hr : forall k, k < n -> nth k (arrPos a) 0 < n) by (intros k Hk; now apply arrPos_inverse).
  assert (Hi : forall j k, j < n -> k < n -> nth j (arrPos a) 0 = nth k (arrPos a) 0 -> j = k).
  { intros j k Hj Hk E. rewrite <- (proj2 (arrPos_inverse a Hp j Hj)), <- (proj2 (arrPos_inverse a Hp k Hk)), E. reflexivity. }
  destruct (swaps_loop_correct n (arrPos a) (arrPos_length a) Hr Hi par Hpar (seq 0 n) [] (repeat false n) 0 1%Z) as (C & E & HF & Hcov).
  - rewrite Forall_forall. intros x Hx. apply in_seq in Hx. lia.
  - split; constructor.
  - split; [apply repeat_length|]. intros x Hx. unfold vis. rewrite nth_repeat. simpl. split; [discriminate|intros []].
  - rewrite app_nil_r in *. exists C. split; [|split; [assumption|]].
    + unfold minSwaps. fold n. rewrite E. rewrite Z.mul_1_l. reflexivity.
    + intros x Hx. apply Hcov. apply in_seq. lia.
Qed.

Lemma cycles_sort a C : Permutation a (seq 0 (List.length a)) ->
  family (List.length a) (arrPos a) C ->
  (forall x, x < List.length a -> nth x (arrPos a) 0 = x \/ In x (List.concat C)) ->
  sorts (List.concat (map adj C)) a.
Proof.
  intros Hp HF Hcov. apply sorts_compose; [assumption|]. split.
  - rewrite Forall_forall. intros p H. apply in_concat in H as (l & Hl & Hin). apply in_map_iff in Hl as (c & <- & Hc).
    destruct HF as [F _]. rewrite Forall_forall in F. destruct (F c Hc) as (_ & _ & Fc & _). rewrite Forall_forall in Fc.
    apply adj_in in Hin as [H1 H2]. auto.
  - intros k Hk.
    assert (Hi : forall i j, i < List.length a -> j < List.length a -> nth i (arrPos a) 0 = nth j (arrPos a) 0 -> i = j).
    { intros i j Hi Hj E. rewrite <- (proj2 (arrPos_inverse a Hp i Hi)), <- (proj2 (arrPos_inverse a Hp j Hj)), E. reflexivity. }
    rewrite (family_compose (List.length a) (arrPos a) (arrPos_length a) (fun k Hk => proj1 (arrPos_inverse a Hp k Hk)) Hi C HF k Hk).
    destruct (in_dec Nat.eq_dec k (List.concat C)); [reflexivity|]. destruct (Hcov k Hk); [now symmetry|contradiction].
Qed.

Lemma minSwaps_count a par : Permutation a (seq 0 (List.length a)) -> List.length a <= List.length par ->
  exists m e, minSwaps a par = Ok (m, e) /\
    (exists ps, sorts ps a /\ List.length ps = m) /\ (forall ps, sorts ps a -> m <= List.length ps).
Proof.
  intros Hp Hpar. destruct (minSwaps_structure a par Hp Hpar) as (C & E & HF & Hcov).
  exists (total C), (parity par C). split; [exact E|split].
  - exists (List.concat (map adj C)). split; [now apply cycles_sort|apply total_length].
  - intros ps Hs. apply sorts_compose in Hs; [|assumption]. destruct Hs as [F Hs].
    apply (family_lower (List.length a) (arrPos a)); try assumption.
    + apply arrPos_length.
    + intros k Hk. now apply arrPos_inverse.
    + intros i j Hi Hj K. rewrite <- (proj2 (arrPos_inverse a Hp i Hi)), <- (proj2 (arrPos_inverse a Hp j Hj)), K. reflexivity.
Qed.

(** Sign: correct when the permutation is its own inverse. *)
Lemma minSwaps_sign_involution a par : Permutation a (seq 0 (List.length a)) -> List.length a <= List.length par ->
  (forall k, k < List.length a -> nth (nth k a 0) a 0 = k) ->
  exists ps, sorts ps a /\ minSwaps a par = Ok (List.length ps, collected par ps) /\
             (forall qs, sorts qs a -> List.length ps <= List.length qs).
Proof.
  intros Hp Hpar Hinv. destruct (minSwaps_structure a par Hp Hpar) as (C & E & HF & Hcov).
  exists (List.concat (map adj C)). split; [now apply cycles_sort|].
  assert (L2 : Forall (fun c => exists x y, c = [x; y]) C).
  { destruct HF as [F _]. eapply Forall_impl; [|exact F]. intros c (L & ND & Fc & Hch).
    destruct c as [|x [|y t]]; simpl in L; try lia. exists x, y. destruct t as [|z t]; [reflexivity|exfalso].
    unfold chain in Hch. simpl in Hch. injection Hch as Ex Ey _.
    pose proof (Forall_inv Fc) as Fx. pose proof (Forall_inv (Forall_inv_tail Fc)) as Fy. cbv beta in Fx, Fy.
    assert (z = x).
    { destruct (arrPos_inverse a Hp x Fx) as [_ A1]. rewrite Ex in A1.
      destruct (arrPos_inverse a Hp y Fy) as [A3 A2]. rewrite Ey in A2, A3.
      pose proof (Hinv z A3) as K. rewrite A2 in K. congruence. }
    inversion ND as [|? ? Nx _]; subst. apply Nx. simpl. tauto. }
  split.
  - rewrite E, total_length. do 2 f_equal. clear -L2. unfold parity, collected.
    induction L2 as [|c C (x & y & ->) _ IH]; [reflexivity|]. simpl. f_equal. exact IH.
  - intros qs Hs. apply sorts_compose in Hs; [|assumption]. destruct Hs as [F Hs].
    rewrite total_length. apply (family_lower (List.length a) (arrPos a)); try assumption.
    + apply arrPos_length.
    + intros k Hk. now apply arrPos_inverse.
    + intros i j Hi Hj K. rewrite <- (proj2 (arrPos_inverse a Hp i Hi)), <- (proj2 (arrPos_inverse a Hp j Hj)), K. reflexivity.
Qed.
