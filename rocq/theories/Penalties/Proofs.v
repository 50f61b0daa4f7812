From Verif.Common Require Import Prelude.
From Verif.Utilities Require Import Model Spec Proofs.
From Verif.Penalties Require Import Model Spec.
Local Open Scope nat_scope.
Lemma position_first x l i : position x l = Some i <-> first x l i.
Proof.
  unfold first. revert i. induction l as [|y l IH]; intro i; cbn [position].
  - split; [discriminate|]. intros [H _]. destruct i; discriminate H.
  - destruct (str_eqb y x) eqn:E.
    + apply str_eqb_eq in E. subst y. split.
      * intro H. injection H as <-. split; [reflexivity|]. intros j L. lia.
      * intros [_ N]. destruct i as [|i]; [reflexivity|]. exfalso. apply (N 0); [lia|reflexivity].
    + apply str_eqb_neq in E. destruct i as [|i].
      * split; [destruct (position x l); discriminate|]. intros [H _]. injection H as H. contradiction.
      * destruct (position x l) as [k|] eqn:P; cbn [option_map].
        -- split.
           ++ intro H. injection H as <-. destruct (proj1 (IH k) eq_refl) as [A B]. split; [exact A|]. intros [|j] L; [intro H; injection H as H; contradiction|]. apply B. lia.
           ++ intros [A B]. f_equal. f_equal. assert (G : Some k = Some i) by (apply IH; split; [exact A|]; intros j L; apply (B (S j)); lia). now injection G.
        -- split; [discriminate|]. intros [A B]. assert (G : @None nat = Some i) by (apply IH; split; [exact A|]; intros j L; apply (B (S j)); lia). discriminate G.
Qed.
Lemma position_none x l : position x l = None <-> ~ In x l.
Proof.
  induction l as [|y l IH]; cbn [position In]; [split; [intros _ []|reflexivity]|]. destruct (str_eqb y x) eqn:E.
  - apply str_eqb_eq in E. split; [discriminate|]. intro H. exfalso. apply H. now left.
  - apply str_eqb_neq in E. destruct (position x l) as [k|]; cbn [option_map]; split; try discriminate; try reflexivity; intro H.
    + exfalso. apply H. right. destruct (in_dec str_dec x l) as [I|I]; [exact I|]. apply IH in I. discriminate I.
    + intros [A|A]; [contradiction|]. now apply IH.
Qed.
Lemma position_in x l : In x l -> exists i, position x l = Some i.
Proof. intro I. destruct (position x l) as [i|] eqn:E; [now exists i|]. apply position_none in E. contradiction. Qed.
Lemma find0_part w x : find0 w x <> None <-> part w x.
Proof.
  split.
  - destruct (find0 w x) as [n|] eqn:E; [intros _|now intro H]. apply find0_Some in E as (_ & [t E] & _). exists (firstn n x), t. rewrite <- E. symmetry. apply firstn_skipn.
  - intros (a & b & ->) E. apply (find0_None _ _ E (List.length a) b). rewrite skipn_app, skipn_all, Nat.sub_diag. reflexivity.
Qed.
Lemma indices_from k l d : forall i, In i (findIndices_from k l d) <-> k <= i /\ exists x, nth_error l (i - k) = Some x /\ part d x.
Proof.
  revert k. induction l as [|y l IH]; intros k i; cbn [findIndices_from].
  - split; [intros []|]. intros [_ (x & H & _)]. destruct (i - k); discriminate H.
  - assert (R : In i (findIndices_from (S k) l d) <-> k < i /\ exists x, nth_error (y :: l) (i - k) = Some x /\ part d x).
    { rewrite IH. split; intros [L (x & H & P)]; (split; [lia|]); exists x; (split; [|exact P]); replace (i - k) with (S (i - S k)) in * by lia; exact H. }
    pose proof (find0_part d y) as F. destruct (find0 d y) as [n|].
    + cbn [In]. rewrite R. split.
      * intros [<-|[L E]]; [|split; [lia|exact E]]. split; [lia|]. exists y. rewrite Nat.sub_diag. split; [reflexivity|]. apply F. discriminate.
      * intros [L E]. destruct (Nat.eq_dec k i) as [D|D]; [now left|right]. split; [lia|exact E].
    + rewrite R. split; intros [L E]; [split; [lia|exact E]|]. destruct (Nat.eq_dec k i) as [D|D]; [|split; [lia|exact E]]. subst i. exfalso.
      destruct E as (x & H & P). rewrite Nat.sub_diag in H. injection H as ->. apply F in P. now apply P.
Qed.
