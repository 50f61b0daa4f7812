From Verif.Common Require Import Prelude.
From Coq Require Import Permutation.
From Verif.Tree Require Import Model Spec Proofs Memory.

Section Q.
  Variable quasi : str -> bool.
  Variable sort : list tree -> list tree.
  Hypothesis sort_perm : forall l, Permutation (sort l) l.
  Notation q := (quasiStableTree quasi sort).
  Definition lifted (ds : list tree) (d : tree) : list tree := if stable (q d) || (quasi (name (item_of (q d))) && negb (List.length ds =? 1)) then [q d] else daughters (q d).
  Lemma q_eq i ds : q (Node i ds) = Node (fresh (name i)) (sort (flat_map (lifted ds) ds)). Proof. reflexivity. Qed.
  Lemma q_name t : name (item_of (q t)) = name (item_of t). Proof. destruct t; reflexivity. Qed.
  Lemma lifted_ne ds d : lifted ds d <> [].
  Proof. unfold lifted. destruct (_ || _) eqn:E; [discriminate|]. intro X. apply orb_false_iff in E as [E _]. unfold stable in E. rewrite X in E. discriminate. Qed.
  Lemma q_daughters t : daughters t <> [] -> daughters (q t) <> [].
  Proof.
    destruct t as [i [|d ds]]; [intro H; now elim H|]. intros _. rewrite q_eq. cbn [daughters]. intro E. pose proof (sort_perm (flat_map (lifted (d :: ds)) (d :: ds))) as P. rewrite E in P.
    apply Permutation_nil in P. cbn in P. apply app_eq_nil in P as [P _]. now apply lifted_ne in P.
  Qed.
  Lemma q_stable t : stable (q t) = stable t.
  Proof.
    destruct t as [i [|d ds]].
    - cbn. pose proof (sort_perm []) as P. apply Permutation_sym, Permutation_nil in P. now rewrite P.
    - pose proof (q_daughters (Node i (d :: ds)) ltac:(discriminate)) as H. unfold stable. destruct (daughters (q _)); [congruence|reflexivity].
  Qed.
  Lemma perm_flat {A B} (f : A -> list B) l l' : Permutation l l' -> Permutation (flat_map f l) (flat_map f l').
  Proof. induction 1; cbn; [constructor|now apply Permutation_app_head|rewrite !app_assoc; apply Permutation_app_tail, Permutation_app_comm|now transitivity (flat_map f l')]. Qed.
  Lemma lifted_ends ds d : Permutation (flat_map ends (lifted ds d)) (ends (q d)).
  Proof.
    unfold lifted. destruct (_ || _) eqn:E; [cbn; now rewrite app_nil_r|]. apply orb_false_iff in E as [E _]. destruct (q d) as [i xs]. cbn in *. destruct xs; [discriminate|reflexivity].
  Qed.
  Lemma quasi_ends : forall t, Permutation (ends (q t)) (ends t).
  Proof.
    induction t as [i ds IH] using tree_ind2. destruct ds as [|d0 ds0].
    - rewrite q_eq. cbn. pose proof (sort_perm []) as P. apply Permutation_sym, Permutation_nil in P. rewrite P. reflexivity.
    - set (ds := d0 :: ds0) in *. assert (N : ds <> []) by discriminate. clearbody ds.
      assert (N' : daughters (q (Node i ds)) <> []) by now apply q_daughters. rewrite q_eq in *. cbn [daughters] in N'. rewrite (ends_node _ _ N'), (ends_node _ _ N).
      etransitivity; [apply perm_flat, sort_perm|]. rewrite Forall_forall in IH. 
      assert (G : forall l, (forall d, In d l -> In d ds) -> Permutation (flat_map ends (flat_map (lifted ds) l)) (flat_map ends l)).
      { induction l as [|d l IHl]; intro I; [constructor|]. cbn. rewrite flat_map_app. apply Permutation_app.
        - etransitivity; [apply lifted_ends|]. apply IH, I. now left. - apply IHl. intros d' I'. apply I. now right. }
      now apply G.
  Qed.
  Lemma q_in i ds x : In x (daughters (q (Node i ds))) <-> exists d, In d ds /\ In x (lifted ds d).
  Proof.
    rewrite q_eq. cbn [daughters]. split.
    - intro I. apply (Permutation_in x (sort_perm _)) in I. now apply in_flat_map in I.
    - intro I. apply (Permutation_in x (Permutation_sym (sort_perm _))). now apply in_flat_map.
  Qed.
  Lemma db_iff t x : decays_below t x <-> exists d, In d (daughters t) /\ (x = d /\ daughters d <> [] \/ decays_below d x).
  Proof.
    split; [intro H; destruct H as [i ds d I N|i ds d y I D]; cbn [daughters]; exists d; intuition|].
    intros (d & I & [[E N]|D]); destruct t as [i ds]; [rewrite E|]; [now apply decays_here|now apply (decays_deep i ds d)].
  Qed.
  Lemma quasi_only : forall t x, decays_below (q t) x -> quasi (name (item_of x)) = true.
  Proof.
    induction t as [i ds IH] using tree_ind2. rewrite Forall_forall in IH. intros x D. apply db_iff in D as (y & I & D). apply q_in in I as (d & Id & I). unfold lifted in I.
    destruct (_ || _) eqn:E.
    - destruct I as [<-|[]]. destruct D as [[-> N]|D]; [|now apply (IH d)]. apply orb_true_iff in E as [E|E]; [unfold stable in E; destruct (daughters (q d)); [congruence|discriminate]|]. now apply andb_true_iff in E.
    - apply (IH d Id). apply db_iff. now exists y.
  Qed.
  Lemma quasi_kept : forall t x, vertex_below t x -> quasi (name (item_of x)) = true -> exists x', decays_below (q t) x' /\ name (item_of x') = name (item_of x) /\ Permutation (ends x') (ends x).
  Proof.
    intros t x V Hq. induction V as [i ds d I N L|i ds d x I V IH].
    - exists (q d). split; [|split; [apply q_name|apply quasi_ends]]. apply db_iff. exists (q d). split; [|left; split; [reflexivity|now apply q_daughters]].
      apply q_in. exists d. split; [exact I|]. unfold lifted. rewrite q_name, Hq. replace (List.length ds =? 1) with false by (symmetry; now apply Nat.eqb_neq). rewrite orb_true_r. now left.
    - destruct (IH Hq) as (x' & D & R). exists x'. split; [|exact R]. apply db_iff in D as (y & Iy & D). apply db_iff. unfold lifted. destruct (stable (q d) || (quasi (name (item_of (q d))) && negb (List.length ds =? 1))) eqn:E.
      + exists (q d). split; [apply q_in; exists d; split; [exact I|unfold lifted; rewrite E; now left]|]. right. apply db_iff. now exists y.
      + exists y. split; [apply q_in; exists d; split; [exact I|unfold lifted; now rewrite E]|]. exact D.
  Qed.
End Q.
