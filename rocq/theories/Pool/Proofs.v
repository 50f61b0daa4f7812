From Coq Require Import Permutation.
From Verif.Common Require Import Prelude.
From Verif.Pool Require Import Model.
Local Open Scope nat_scope.

Section Pool.
  Variable T : Type.
  Notation pool := (pool T).
  Notation worker := (worker T).
  Notation caller := (caller T).

  Definition running (l : list worker) : list T := flat_map (fun w => match w with Running t => [t] | _ => [] end) l.
  Definition active (w : worker) : Prop := match w with Ready | Running _ => True | _ => False end.
  Definition open (o : owner) : Prop := match o with Idle | NotifyAll | Join _ => True | _ => False end.

  Definition inv (n : nat) (p : pool) : Prop :=
    accepted p = started p ++ tasks p /\ Permutation (started p) (finished p ++ running (workers p)) /\ List.length (workers p) = n /\
    match own p with
    | Idle => stop p = false /\ ~ In Exited (workers p)
    | NotifyAll => stop p = true /\ accepted p = closed p
    | Join k => stop p = true /\ accepted p = closed p /\ ~ In Blocked (workers p) /\ k <= n /\ forall i, i < k -> nth_error (workers p) i = Some Exited
    | Returned | JoinThrown => (forall w, In w (workers p) -> w = Exited) /\ started p = closed p
    end /\
    (open (own p) -> In Exited (workers p) -> tasks p = []) /\
    (open (own p) -> tasks p <> [] -> (exists w, In w (workers p) /\ active w) \/ exists l, In (Notify l) (callers p)).

  Lemma running_app a b : running (a ++ b) = running a ++ running b.
  Proof. apply flat_map_app. Qed.
  Lemma running_mid a w b : running (a ++ w :: b) = running a ++ (match w with Running t => [t] | _ => [] end) ++ running b.
  Proof. rewrite running_app. reflexivity. Qed.
  Lemma init_inv n progs : 0 < n -> inv n (init n progs).
  Proof.
    intro Hn. unfold inv, init. cbn [tasks stop workers callers own started finished accepted closed]. repeat split.
    - clear. induction n as [|n IH]; [constructor|exact IH].
    - apply repeat_length.
    - intro H. apply repeat_spec in H. discriminate.
    - intros _ H. congruence.
  Qed.
  Lemma length_mid {A} (a b : list A) x y : List.length (a ++ x :: b) = List.length (a ++ y :: b).
  Proof. rewrite !app_length. reflexivity. Qed.
  Lemma in_mid {A} (a b : list A) x y : In y (a ++ x :: b) <-> x = y \/ In y (a ++ b).
  Proof. rewrite !in_app_iff. cbn [In]. tauto. Qed.
  Lemma nth_mid {A} (a b : list A) x y i : nth_error (a ++ x :: b) i = Some y -> x <> y -> forall z, nth_error (a ++ z :: b) i = Some y.
  Proof.
    revert i. induction a as [|c a IH]; intros [|i] H Ne z; cbn [app nth_error] in *; try assumption; [congruence|]. now apply IH.
  Qed.
  Lemma running_unblock l : running (map (unblock T) l) = running l.
  Proof. induction l as [|w l IH]; [reflexivity|]. cbn [map running flat_map]. unfold running in IH. rewrite IH. destruct w; reflexivity. Qed.

  Lemma perm_take (s f x y : list T) t : Permutation s (f ++ x ++ y) -> Permutation (s ++ [t]) (f ++ x ++ [t] ++ y).
  Proof.
    intro H. cbn [app]. apply Permutation_trans with (t :: s); [apply Permutation_sym, Permutation_cons_append|].
    rewrite app_assoc in *. apply Permutation_trans with (t :: (f ++ x) ++ y); [now apply perm_skip|apply Permutation_middle].
  Qed.
  Lemma perm_drop (s f x y : list T) t : Permutation s (f ++ x ++ [t] ++ y) -> Permutation s ((f ++ [t]) ++ x ++ y).
  Proof.
    intro H. apply (Permutation_trans H). rewrite <- app_assoc. apply Permutation_app_head. cbn [app]. apply Permutation_sym, Permutation_middle.
  Qed.

  Lemma step_inv n b p q : 0 < n -> inv n p -> step b p q -> inv n q.
  Proof.
    intros Hn (A & R & L & O & E & W) S. destruct S as [p a b Hw|p a b t Hw|p a b Hw|p a b t l Hc Hs|p a b t l Hc Hs|p a b l c d Hc Hw|p a b l Hc Hw|p Ho|p Ho|p k Ho Hk|p k Ho Hk|p Ho Hk].
    - (* Turn *)
      unfold turn. rewrite Hw in *. rewrite running_mid in R. cbn [app] in R. destruct (stop p) eqn:Es; cbn [orb negb].
      + destruct (tasks p) as [|t r] eqn:Et.
        * unfold inv. cbn [tasks stop workers callers own started finished accepted closed]. rewrite running_mid. cbn [app].
          split; [assumption|]. split; [assumption|]. split; [rewrite <- L; apply length_mid|]. split; [|split].
          -- destruct (own p) as [| |k| |]; rewrite ?Es in *.
             ++ destruct O; discriminate.
             ++ assumption.
             ++ destruct O as (O1 & O2 & O3 & O4 & O5). repeat split; auto. { rewrite in_mid in *. intros [X|X]; [discriminate|tauto]. }
                intros i Hi. apply nth_mid with Ready; [auto|discriminate].
             ++ destruct O as [O1 O2]. exfalso. specialize (O1 Ready ltac:(apply in_mid; now left)). discriminate.
             ++ destruct O as [O1 O2]. exfalso. specialize (O1 Ready ltac:(apply in_mid; now left)). discriminate.
          -- auto.
          -- congruence.
        * unfold inv. cbn [tasks stop workers callers own started finished accepted closed]. rewrite running_mid.
          split; [rewrite <- app_assoc; assumption|]. split; [|split; [rewrite <- L; apply length_mid|split; [|split]]].
          -- now apply perm_take.
          -- destruct (own p) as [| |k| |]; rewrite ?Es in *.
             ++ destruct O; discriminate.
             ++ assumption.
             ++ destruct O as (O1 & O2 & O3 & O4 & O5). repeat split; auto. { rewrite in_mid in *. intros [X|X]; [discriminate|tauto]. }
                intros i Hi. apply nth_mid with Ready; [auto|discriminate].
             ++ destruct O as [O1 O2]. exfalso. specialize (O1 Ready ltac:(apply in_mid; now left)). discriminate.
             ++ destruct O as [O1 O2]. exfalso. specialize (O1 Ready ltac:(apply in_mid; now left)). discriminate.
          -- intros Ho X. apply in_mid in X. destruct X as [X|X]; [discriminate|]. specialize (E Ho ltac:(apply in_mid; now right)). discriminate.
          -- intros _ _. left. exists (Running t). split; [apply in_mid; now left|exact I].
      + destruct (tasks p) as [|t r] eqn:Et; cbn [orb negb].
        * unfold inv. cbn [tasks stop workers callers own started finished accepted closed]. rewrite running_mid. cbn [app].
          split; [assumption|]. split; [assumption|]. split; [rewrite <- L; apply length_mid|]. split; [|split].
          -- destruct (own p) as [| |k| |]; rewrite ?Es in *.
             ++ destruct O as [O1 O2]. split; [reflexivity|]. rewrite in_mid in *. intros [X|X]; [discriminate|tauto].
             ++ destruct O; discriminate.
             ++ destruct O; discriminate.
             ++ destruct O as [O1 O2]. exfalso. specialize (O1 Ready ltac:(apply in_mid; now left)). discriminate.
             ++ destruct O as [O1 O2]. exfalso. specialize (O1 Ready ltac:(apply in_mid; now left)). discriminate.
          -- auto.
          -- congruence.
        * unfold inv. cbn [tasks stop workers callers own started finished accepted closed]. rewrite running_mid.
          split; [rewrite <- app_assoc; assumption|]. split; [|split; [rewrite <- L; apply length_mid|split; [|split]]].
          -- now apply perm_take.
          -- destruct (own p) as [| |k| |]; rewrite ?Es in *.
             ++ destruct O as [O1 O2]. split; [reflexivity|]. rewrite in_mid in *. intros [X|X]; [discriminate|tauto].
             ++ destruct O; discriminate.
             ++ destruct O; discriminate.
             ++ destruct O as [O1 O2]. exfalso. specialize (O1 Ready ltac:(apply in_mid; now left)). discriminate.
             ++ destruct O as [O1 O2]. exfalso. specialize (O1 Ready ltac:(apply in_mid; now left)). discriminate.
          -- intros Ho X. apply in_mid in X. destruct X as [X|X]; [discriminate|]. specialize (E Ho ltac:(apply in_mid; now right)). discriminate.
          -- intros _ _. left. exists (Running t). split; [apply in_mid; now left|exact I].
    - (* Finish *)
      unfold inv. cbn [tasks stop workers callers own started finished accepted closed]. rewrite Hw in *. rewrite running_mid in *.
      split; [assumption|]. split; [|split; [rewrite <- L; apply length_mid|split; [|split]]].
      + now apply perm_drop.
      + destruct (own p) as [| |k| |].
        * destruct O as [O1 O2]. split; [assumption|]. rewrite in_mid in *. intros [X|X]; [discriminate|tauto].
        * assumption.
        * destruct O as (O1 & O2 & O3 & O4 & O5). repeat split; auto. { rewrite in_mid in *. intros [X|X]; [discriminate|tauto]. }
          intros i Hi. apply nth_mid with (Running t); [auto|discriminate].
        * destruct O as [O1 O2]. exfalso. specialize (O1 (Running t) ltac:(apply in_mid; now left)). discriminate.
        * destruct O as [O1 O2]. exfalso. specialize (O1 (Running t) ltac:(apply in_mid; now left)). discriminate.
      + intros Ho X. apply E; [assumption|]. rewrite in_mid in *. destruct X as [X|X]; [discriminate|now right].
      + intros _ _. left. exists Ready. split; [apply in_mid; now left|exact I].
    - (* Spurious *)
      unfold inv. cbn [tasks stop workers callers own started finished accepted closed]. rewrite Hw in *. rewrite running_mid in *.
      split; [assumption|]. split; [assumption|]. split; [rewrite <- L; apply length_mid|]. split; [|split].
      + destruct (own p) as [| |k| |].
        * destruct O as [O1 O2]. split; [assumption|]. rewrite in_mid in *. intros [X|X]; [discriminate|tauto].
        * assumption.
        * destruct O as (O1 & O2 & O3 & O4 & O5). exfalso. apply O3. apply in_mid. now left.
        * destruct O as [O1 O2]. exfalso. specialize (O1 Blocked ltac:(apply in_mid; now left)). discriminate.
        * destruct O as [O1 O2]. exfalso. specialize (O1 Blocked ltac:(apply in_mid; now left)). discriminate.
      + intros Ho X. apply E; [assumption|]. rewrite in_mid in *. destruct X as [X|X]; [discriminate|now right].
      + intros _ _. left. exists Ready. split; [apply in_mid; now left|exact I].
    - (* Put *)
      unfold inv. cbn [tasks stop workers callers own started finished accepted closed].
      split; [rewrite A; symmetry; apply app_assoc|]. split; [assumption|]. split; [assumption|]. rewrite Hs in *. split; [|split].
      + destruct (own p); try tauto; destruct O; discriminate.
      + intros Ho X. destruct (own p); try contradiction; [destruct O; contradiction|destruct O; discriminate|destruct O; discriminate].
      + intros _ _. right. exists l. apply in_mid. now left.
    - (* Refuse *)
      unfold inv. cbn [tasks stop workers callers own started finished accepted closed]. repeat (split; [assumption|]).
      intros Ho Ht. destruct (W Ho Ht) as [X|(l' & X)]; [now left|]. right. exists l'. rewrite Hc in X. rewrite in_mid in *. destruct X as [X|X]; [discriminate|now right].
    - (* NotifyOne *)
      unfold inv. cbn [tasks stop workers callers own started finished accepted closed]. rewrite Hw in *. rewrite running_mid in *.
      split; [assumption|]. split; [assumption|]. split; [rewrite <- L; apply length_mid|]. split; [|split].
      + destruct (own p) as [| |k| |].
        * destruct O as [O1 O2]. split; [assumption|]. rewrite in_mid in *. intros [X|X]; [discriminate|tauto].
        * assumption.
        * destruct O as (O1 & O2 & O3 & O4 & O5). exfalso. apply O3. apply in_mid. now left.
        * destruct O as [O1 O2]. exfalso. specialize (O1 Blocked ltac:(apply in_mid; now left)). discriminate.
        * destruct O as [O1 O2]. exfalso. specialize (O1 Blocked ltac:(apply in_mid; now left)). discriminate.
      + intros Ho X. apply E; [assumption|]. rewrite in_mid in *. destruct X as [X|X]; [discriminate|now right].
      + intros _ _. left. exists Ready. split; [apply in_mid; now left|exact I].
    - (* NotifyNone *)
      unfold inv. cbn [tasks stop workers callers own started finished accepted closed]. repeat (split; [assumption|]).
      intros Ho Ht. left. destruct (workers p) as [|w ws] eqn:Ew; [cbn in L; lia|]. exists w. split; [now left|].
      assert (Bw : blocked T w = false). { cbn [existsb] in Hw. apply orb_false_iff in Hw. tauto. }
      destruct w; cbn in *; try exact I; [discriminate|]. apply Ht, E; [assumption|now left].
    - (* Stop *)
      unfold inv. cbn [tasks stop workers callers own started finished accepted closed]. rewrite Ho in *. destruct O as [O1 O2].
      repeat (split; [assumption|]). split; [auto|]. split; [intros _; apply E; exact I|]. intros _. apply W. exact I.
    - (* WakeAll *)
      unfold inv. cbn [tasks stop workers callers own started finished accepted closed]. rewrite Ho in *. destruct O as [O1 O2]. rewrite running_unblock, map_length.
      repeat (split; [assumption|]). split; [|split].
      + split; [assumption|]. split; [assumption|]. split; [|split; [lia|intros i Hi; lia]]. intro X. apply in_map_iff in X. destruct X as (w & X & _). destruct w; discriminate.
      + intros _ X. apply in_map_iff in X. destruct X as (w & X & Hx). destruct w; try discriminate. apply E; [exact I|exact Hx].
      + intros _ Ht. destruct (W I Ht) as [(w & Hi & Ha)|X]; [|now right]. left. exists (unblock T w). split; [now apply in_map|]. now destruct w.
    - (* Joined *)
      unfold inv. cbn [tasks stop workers callers own started finished accepted closed]. rewrite Ho in *. destruct O as (O1 & O2 & O3 & O4 & O5).
      assert (Lk : k < List.length (workers p)) by (apply nth_error_Some; congruence).
      repeat (split; [assumption|]). split; [|split].
      + repeat (split; [assumption|]). split; [lia|]. intros i Hi. destruct (Nat.eq_dec i k) as [->|]; [assumption|]. apply O5. lia.
      + intros _. apply E. exact I.
      + intros _. apply W. exact I.
    - (* Return *)
      unfold inv. cbn [tasks stop workers callers own started finished accepted closed]. rewrite Ho in *. destruct O as (O1 & O2 & O3 & O4 & O5).
      assert (All : forall w, In w (workers p) -> w = Exited).
      { intros w Hi. apply In_nth_error in Hi. destruct Hi as (i & Hi). assert (i < List.length (workers p)) by (apply nth_error_Some; congruence). rewrite O5 in Hi by lia. congruence. }
      assert (Tk : tasks p = []). { apply E; [exact I|]. apply nth_error_In with 0. apply O5. lia. }
      repeat (split; [assumption|]). split; [|split; intros []]. split; [assumption|]. rewrite Tk, app_nil_r in A. congruence.
    - (* Again *)
      unfold inv. cbn [tasks stop workers callers own started finished accepted closed]. rewrite Ho in *. repeat (split; [assumption|]). intros [].
  Qed.

  Lemma exec_inv n N k p q : 0 < n -> inv n p -> exec N k p q -> inv n q.
  Proof. intros Hn Hp H. induction H as [|N k p q r H IH S|N k p q r H IH S]; [assumption| |]; [apply (step_inv n false q r Hn)|apply (step_inv n true q r Hn)]; auto. Qed.

  (** *** Termination *)
  Definition w_worker (w : worker) : nat := match w with Ready => 1 | Running _ => 2 | _ => 0 end.
  Definition w_caller (c : caller) : nat := match c with Enqueue l => 5 * List.length l | Notify l => 5 * List.length l + 2 | Thrown _ => 0 end.
  Definition w_owner (n : nat) (o : owner) : nat := match o with Idle => 2 * n + 6 | NotifyAll => 2 * n + 5 | Join k => (n - k) + 3 | Returned => 1 | JoinThrown => 0 end.
  Definition sum {A} (f : A -> nat) (l : list A) : nat := fold_right (fun x s => f x + s) 0 l.
  Definition measure (n : nat) (p : pool) : nat := 2 * List.length (tasks p) + sum w_worker (workers p) + sum w_caller (callers p) + w_owner n (own p).
  Lemma sum_mid {A} (f : A -> nat) a x b : sum f (a ++ x :: b) = sum f a + f x + sum f b.
  Proof. induction a as [|y a IH]; [reflexivity|]. cbn [app sum fold_right]. unfold sum in IH |- *. rewrite IH. lia. Qed.
  Lemma sum_unblock l : sum w_worker (map (unblock T) l) <= sum w_worker l + List.length l.
  Proof. induction l as [|w l IH]; [reflexivity|]. cbn [map sum fold_right List.length]. unfold sum in IH. destruct w; cbn [unblock w_worker]; lia. Qed.

  Lemma step_measure n b p q : List.length (workers p) = n -> step b p q -> if b then measure n q = S (measure n p) else measure n q < measure n p.
  Proof.
    intros L S. unfold measure. destruct S as [p a b Hw|p a b t Hw|p a b Hw|p a b t l Hc Hs|p a b t l Hc Hs|p a b l c d Hc Hw|p a b l Hc Hw|p Ho|p Ho|p k Ho Hk|p k Ho Hk|p Ho Hk];
      cbn [tasks stop workers callers own].
    - unfold turn. rewrite Hw. destruct (stop p), (tasks p) as [|t r]; cbn [orb negb tasks stop workers callers own]; rewrite !sum_mid; cbn [w_worker List.length]; lia.
    - rewrite Hw, !sum_mid. cbn [w_worker]. lia.
    - rewrite Hw, !sum_mid. cbn [w_worker]. lia.
    - rewrite Hc, !sum_mid, app_length. cbn [w_caller List.length]. lia.
    - rewrite Hc, !sum_mid. cbn [w_caller List.length]. lia.
    - rewrite Hc, Hw, !sum_mid. cbn [w_caller w_worker List.length]. lia.
    - rewrite Hc, !sum_mid. cbn [w_caller List.length]. lia.
    - rewrite Ho. cbn [w_owner]. lia.
    - rewrite Ho. cbn [w_owner]. pose proof (sum_unblock (workers p)). lia.
    - rewrite Ho. cbn [w_owner]. assert (k < List.length (workers p)) by (apply nth_error_Some; congruence). lia.
    - rewrite Ho. cbn [w_owner]. lia.
    - rewrite Ho. cbn [w_owner]. lia.
  Qed.
  Lemma exec_length n N k p q : 0 < n -> inv n p -> exec N k p q -> N + measure n q <= measure n p + k.
  Proof.
    intros Hn Hp H. induction H as [|N k p q r H IH S|N k p q r H IH S]; [lia| |]; specialize (IH Hp).
    - pose proof (exec_inv n N k p q Hn Hp H) as (_ & _ & L & _). pose proof (step_measure n false q r L S) as M. change (measure n r < measure n q) in M. lia.
    - pose proof (exec_inv n N k p q Hn Hp H) as (_ & _ & L & _). pose proof (step_measure n true q r L S) as M. change (measure n r = Datatypes.S (measure n q)) in M. lia.
  Qed.

  Lemma split_at {A} (l : list A) k x : nth_error l k = Some x -> exists a b, l = a ++ x :: b.
  Proof. intro H. apply nth_error_split in H. destruct H as (a & b & -> & _). eauto. Qed.
  (** A shutdown that has begun can go on until it returns. *)
  Lemma shutdown_progress n p : inv n p -> own p = NotifyAll \/ (exists k, own p = Join k) -> exists q, step false p q.
  Proof.
    intros (A & R & L & O & E & W) [Ho|(k & Ho)]; [eexists; now apply WakeAll|]. rewrite Ho in O. destruct O as (O1 & O2 & O3 & O4 & O5).
    destruct (Nat.eq_dec k n) as [->|Ne]; [eexists; exact (Return T p n Ho (eq_sym L))|].
    destruct (nth_error (workers p) k) as [w|] eqn:Ek; [|apply nth_error_None in Ek; lia]. destruct (split_at _ _ _ Ek) as (a & b & Ew). destruct w.
    - eexists. exact (Turn T p a b Ew).
    - exfalso. apply O3. now apply nth_error_In in Ek.
    - eexists. exact (Finish T p a b t Ew).
    - eexists. exact (Joined T p k Ho Ek).
  Qed.
  (** Nothing waits when there is something to do. *)
  Lemma no_lost_wakeup n p : inv n p -> open (own p) -> tasks p <> [] -> exists q, step false p q.
  Proof.
    intros (A & R & L & O & E & W) Ho Ht. destruct (W Ho Ht) as [(w & Hw & Ha)|(l & Hl)].
    - apply in_split in Hw. destruct Hw as (a & b & Ew). destruct w; try contradiction; eexists; [exact (Turn T p a b Ew)|exact (Finish T p a b t Ew)].
    - apply in_split in Hl. destruct Hl as (a & b & Ec). destruct (existsb (blocked T) (workers p)) eqn:Eb; [|eexists; exact (NotifyNone T p a b l Ec Eb)].
      apply existsb_exists in Eb. destruct Eb as (w & Hw & Bw). apply in_split in Hw. destruct Hw as (c & d & Ew). destruct w; try discriminate.
      eexists. exact (NotifyOne T p a b l c d Ec Ew).
  Qed.
  Lemma running_exited l : (forall w, In w l -> w = Exited) -> running l = [].
  Proof. induction l as [|w l IH]; intro H; [reflexivity|]. cbn [running flat_map]. rewrite (H w (or_introl eq_refl)). apply IH. intros x Hx. apply H. now right. Qed.
End Pool.
