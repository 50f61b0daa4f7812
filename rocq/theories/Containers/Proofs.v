From Verif.Common Require Import Prelude Writes.
From Verif.Containers Require Import Model Spec.
Local Open Scope nat_scope.
Section Dynamic.
  Context {T : Type} (g : nat -> list T) (total B : nat) (HB : 0 < B) (HG : forall k, List.length (g k) = B).
  Lemma stream_S n : stream g (S n) = stream g n ++ g n.
  Proof. unfold stream. rewrite seq_S, map_app, concat_app. cbn [map List.concat]. now rewrite app_nil_r. Qed.
  Lemma stream_length n : List.length (stream g n) = n * B.
  Proof. induction n as [|n IH]; [reflexivity|]. rewrite stream_S, app_length, IH, HG. lia. Qed.
  Lemma stream_nth n i : i < n * B -> nth_error (stream g n) i = nth_error (g (i / B)) (i mod B).
  Proof.
    induction n as [|n IH]; intro L; [lia|]. rewrite stream_S. destruct (Nat.lt_ge_cases i (n * B)) as [H|H].
    - rewrite nth_error_app1 by (rewrite stream_length; exact H). now apply IH.
    - rewrite nth_error_app2 by (rewrite stream_length; exact H). rewrite stream_length. assert (Q : i / B = n) by (symmetry; apply (Nat.div_unique i B n (i - n * B)); nia).
      assert (M : i mod B = i - n * B) by (symmetry; apply (Nat.mod_unique i B n (i - n * B)); nia). now rewrite Q, M.
  Qed.
  (** The state at a position. *)
  Definition at_pos (pos : nat) : dynamic T := Dynamic (g (pos / B)) (S (pos / B)).
  Lemma at_ok pos : exists x, at_ (at_pos pos) pos = Ok x /\ nth_error (g (pos / B)) (pos mod B) = Some x.
  Proof.
    assert (L : pos mod B < B) by (apply Nat.mod_upper_bound; lia). unfold at_, at_pos. cbn [m_buffer]. specialize (HG (pos / B)).
    destruct (nth_error (g (pos / B)) (pos mod B)) as [x|] eqn:E; [|apply nth_error_None in E; lia]. exists x. split; [|reflexivity].
    destruct (g (pos / B)) as [|y l] eqn:G; [cbn in HG; lia|]. rewrite HG, E. reflexivity.
  Qed.
  Lemma increment_ok pos : S pos < total -> increment g total (at_pos pos) pos = Ok (at_pos (S pos), S pos).
  Proof.
    intro L. unfold increment, at_pos. cbn [m_buffer]. pose proof (HG (pos / B)) as H. destruct (g (pos / B)) as [|y l] eqn:G; [cbn in H; lia|]. rewrite H.
    pose proof (Nat.div_mod pos B) as D. pose proof (Nat.mod_upper_bound pos B) as U. destruct (Nat.eqb_spec (S pos mod B) 0) as [E|E].
    - destruct total as [|t]; [lia|]. rewrite (Nat.mod_small (S pos)) by exact L. cbn [Nat.eqb refresh calls].
      assert (Q : S pos / B = S (pos / B)).
      { pose proof (Nat.div_mod (S pos) B) as D'. rewrite E in D'. assert (K : S (pos mod B) = B); [|symmetry; apply (Nat.div_unique _ B _ 0); nia].
        destruct (Nat.eq_dec (S (pos mod B)) B) as [K|K]; [exact K|]. exfalso. assert (M : S pos mod B = S (pos mod B)) by (symmetry; apply (Nat.mod_unique _ B (pos / B)); lia). lia. }
      rewrite Q. reflexivity.
    - assert (Q : S pos / B = pos / B).
      { symmetry. apply (Nat.div_unique _ B _ (S (pos mod B))); [|lia]. destruct (Nat.eq_dec (S (pos mod B)) B) as [K|K]; [|lia]. exfalso. apply E.
        symmetry. apply (Nat.mod_unique _ B (S (pos / B))); nia. }
      rewrite Q, G. reflexivity.
  Qed.
  Lemma increment_last pos : S pos = total -> increment g total (at_pos pos) pos = Ok (at_pos pos, S pos).
  Proof.
    intros <-. unfold increment, at_pos. cbn [m_buffer]. pose proof (HG (pos / B)) as H. destruct (g (pos / B)) as [|y l] eqn:G; [cbn in H; lia|].
    rewrite Nat.mod_same by lia. destruct (S pos mod _ =? 0); reflexivity.
  Qed.
  Lemma walk_ok : forall todo pos, pos + todo = total -> 0 < todo ->
    exists out, walk (increment g total) todo (at_pos pos) pos = Ok (at_pos (total - 1), out) /\ List.length out = todo /\
      forall i, i < todo -> nth_error out i = nth_error (g ((pos + i) / B)) ((pos + i) mod B).
  Proof.
    induction todo as [|n IH]; intros pos E L; [lia|]. cbn [walk]. destruct (at_ok pos) as (x & A & X). rewrite A. cbn [bind]. destruct n as [|n].
    - rewrite increment_last by lia. cbn [bind walk fst snd]. exists [x]. replace (total - 1) with pos by lia. split; [reflexivity|]. split; [reflexivity|].
      intros i I. replace i with 0 by lia. rewrite Nat.add_0_r. now symmetry.
    - rewrite increment_ok by lia. cbn [bind fst snd]. destruct (IH (S pos)) as (out & W & N & V); [lia|lia|]. rewrite W. cbn [bind fst snd]. eexists. split; [reflexivity|]. split; [cbn; lia|].
      intros [|i] I; cbn [nth_error]; [now rewrite Nat.add_0_r|]. rewrite V by lia. now replace (pos + S i) with (S pos + i) by lia.
  Qed.
  Lemma blocks_of : 0 < total -> blocks total B (S ((total - 1) / B)).
  Proof.
    intro L. pose proof (Nat.div_mod (total - 1) B) as D. pose proof (Nat.mod_upper_bound (total - 1) B) as U. split; [nia|]. intros m M.
    destruct (Nat.le_gt_cases (S ((total - 1) / B)) m) as [H|H]; [exact H|]. nia.
  Qed.
End Dynamic.
Lemma nth_error_firstn' {A} n (l : list A) i : i < n -> nth_error (firstn n l) i = nth_error l i.
Proof. revert l i. induction n as [|n IH]; intros [|x l] [|i] H; cbn; try reflexivity; try lia. apply IH. lia. Qed.
Lemma nth_error_ext {A} (l l' : list A) : (forall i, nth_error l i = nth_error l' i) -> l = l'.
Proof.
  revert l'. induction l as [|x l IH]; intros [|y l'] H; [reflexivity|discriminate (H 0)|discriminate (H 0)|]. pose proof (H 0) as E. injection E as ->. f_equal. apply IH. intro i. exact (H (S i)).
Qed.
(** ** Small vectors *)
Lemma push_all_ok l : forall v s, push_all l v = Ok s -> List.length (store s) = List.length (store v) /\ size s = size v + List.length l.
Proof.
  induction l as [|x l IH]; intros v s H; cbn [push_all] in H; [injection H as <-; split; cbn; lia|].
  unfold push_back in H at 1. destruct (set_at (size v) x (store v)) as [t|] eqn:E; [|discriminate H]. cbn [of_opt bind] in H. destruct (IH _ _ H) as [A B]. cbn [store size] in A, B.
  split; [rewrite A|cbn; lia]. clear - E. revert t E. generalize (size v). induction (store v) as [|y r IH]; intros [|k] t E; cbn in E; try discriminate E; [injection E as <-; reflexivity|].
  destruct (set_at k x r) as [t'|] eqn:G; [|discriminate E]. cbn in E. injection E as <-. cbn. f_equal. now apply (IH k).
Qed.
Lemma set_end a b x (c : list Z) : set_at (List.length a) x (a ++ b :: c) = Some (a ++ x :: c).
Proof. induction a as [|y a IH]; cbn; [reflexivity|]. rewrite IH. reflexivity. Qed.
Lemma set_beyond k x (l : list Z) : List.length l <= k -> set_at k x l = None.
Proof. revert k. induction l as [|y l IH]; intros [|k] H; cbn in *; try reflexivity; try lia. rewrite IH by lia. reflexivity. Qed.
Lemma push_all_app l : forall a n, List.length l <= n -> push_all l (Small (a ++ repeat 0%Z n) (List.length a)) = Ok (Small (a ++ l ++ repeat 0%Z (n - List.length l)) (List.length a + List.length l)).
Proof.
  induction l as [|x l IH]; intros a n L; cbn [push_all List.length app]; [now rewrite Nat.sub_0_r, Nat.add_0_r|]. destruct n as [|n]; [cbn in L; lia|]. cbn in L.
  unfold push_back at 1. cbn [store size repeat]. rewrite set_end. cbn [of_opt bind]. change (a ++ x :: repeat 0%Z n) with (a ++ [x] ++ repeat 0%Z n). rewrite app_assoc.
  replace (S (List.length a)) with (List.length (a ++ [x])) by (rewrite app_length; cbn; lia). rewrite IH by lia. rewrite app_length, <- app_assoc. cbn [List.length app].
  f_equal. f_equal. lia.
Qed.
Lemma push_all_full l : forall a n, n < List.length l -> push_all l (Small (a ++ repeat 0%Z n) (List.length a)) = UB.
Proof.
  induction l as [|x l IH]; intros a n L; cbn in L; [lia|]. cbn [push_all]. unfold push_back at 1. cbn [store size]. destruct n as [|n].
  - cbn [repeat]. rewrite app_nil_r, set_beyond by lia. reflexivity.
  - cbn [repeat]. rewrite set_end. cbn [of_opt bind]. change (a ++ x :: repeat 0%Z n) with (a ++ [x] ++ repeat 0%Z n). rewrite app_assoc.
    replace (S (List.length a)) with (List.length (a ++ [x])) by (rewrite app_length; cbn; lia). apply IH. lia.
Qed.
Lemma copy_app l : forall a n, copy (List.length a) l (a ++ repeat 0%Z n) = if List.length l <=? n then Ok (a ++ l ++ repeat 0%Z (n - List.length l)) else UB.
Proof.
  induction l as [|x l IH]; intros a n; cbn [copy List.length app]; [now rewrite Nat.sub_0_r|]. destruct n as [|n].
  - cbn [repeat]. rewrite app_nil_r, set_beyond by lia. reflexivity.
  - cbn [repeat]. rewrite set_end. cbn [of_opt bind]. change (a ++ x :: repeat 0%Z n) with (a ++ [x] ++ repeat 0%Z n). rewrite app_assoc.
    replace (S (List.length a)) with (List.length (a ++ [x])) by (rewrite app_length; cbn; lia). rewrite IH, <- app_assoc. reflexivity.
Qed.
