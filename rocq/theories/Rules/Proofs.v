From Verif.Utilities Require Import Model Proofs.
From Verif.Descriptor Require Import Spec Proofs.
From Verif.Descriptor Require Model.
From Verif.Rules Require Import Model Spec Strings Multi.
From Coq Require Import Permutation SetoidPermutation.

(** ** Reading *)
Fixpoint canon (w : world) (t : tree) : tree := let '(Tree n ms ds) := t in Tree n ms (order w n (map (canon w) ds)).

Lemma clean_inv rules k n ms ds : clean rules k (Tree n ms ds) -> free_of punctuation n /\ Forall (free_of punctuation) ms /\ k n = true /\
  (forall x, decays rules x = true -> within x n -> x = n) /\ (forall x m, decays rules x = true -> In m ms -> ~ within x m) /\
  (ds = [] -> decays rules n = true -> ms = []) /\ Forall (clean rules k) ds.
Proof. intro H. inversion H; subst. tauto. Qed.
Lemma clean_good rules k t : clean rules k t -> good "{" "}" "," (text t).
Proof.
  induction t as [n mods ds IH] using tree_ind'. intro H. destruct (clean_inv _ _ _ _ _ H) as (Hn & Hm & _ & _ & _ & _ & Hd). cbn [text].
  pose proof (head_plain n mods Hn Hm) as P. destruct ds as [|d r]; [now apply plain_good|].
  apply (node_good "{" "}" ","); try discriminate; [exact P|].
  clear - IH Hd. induction IH as [|x l Hx _ IHl]; cbn; constructor; [apply Hx; exact (Forall_inv Hd)|]. apply IHl. exact (Forall_inv_tail Hd).
Qed.
Lemma clean_items rules k t : clean rules k t -> Descriptor.Model.getItems "{" "}" "," (text t) = let '(Tree n mods ds) := t in Ok (head_text n mods :: map text ds).
Proof.
  destruct t as [n mods ds]. intro H. destruct (clean_inv _ _ _ _ _ H) as (Hn & Hm & _ & _ & _ & _ & Hd). cbn [text].
  pose proof (head_plain n mods Hn Hm) as P. destruct ds as [|d r]; [now apply items_plain|].
  apply (items_node "{" "}" ","); try discriminate; [exact P|].
  clear - Hd. induction Hd as [|x l Hx _ IHl]; cbn; constructor; [now apply (clean_good rules k)|assumption].
Qed.
Lemma read_text rules w t : clean rules (known w) t -> forall fuel, height t <= fuel -> read w fuel (text t) = Ok (Some (canon w t)).
Proof.
  induction t as [n mods ds IH] using tree_ind'. intros H fuel F. pose proof (clean_items _ _ _ H) as I. destruct (clean_inv _ _ _ _ _ H) as (Hn & Hm & Hk & _ & _ & _ & Hd).
  destruct fuel as [|fuel]; [cbn in F; lia|]. cbn [read]. rewrite I. cbn [bind]. rewrite (head_items n mods Hn Hm). cbn [bind].
  assert (A : all_read (map (read w fuel) (map text ds)) = Ok (map (canon w) ds)).
  { clear - IH Hd F. cbn [height] in F. induction ds as [|d r IHr]; [reflexivity|]. cbn [map fold_right] in *. cbn [all_read].
    rewrite (Forall_inv IH (Forall_inv Hd)) by lia. cbn [bind]. rewrite IHr; [reflexivity|exact (Forall_inv_tail IH)|lia|exact (Forall_inv_tail Hd)]. }
  rewrite A. cbn [bind]. rewrite Hk. reflexivity.
Qed.
Definition order_ok (w : world) : Prop := forall n l, Permutation (order w n l) l.
Lemma canon_alike w t : order_ok w -> alike t (canon w t).
Proof.
  intro O. induction t as [n ms ds IH] using tree_ind'. cbn [canon]. apply (alike_tree n ms ds (map (canon w) ds)); [|symmetry; apply O].
  clear -IH. induction IH; cbn; constructor; assumption.
Qed.
Lemma forall2_in_r {A B} (R : A -> B -> Prop) l k b : Forall2 R l k -> In b k -> exists a, In a l /\ R a b.
Proof. induction 1 as [|x y l k H _ IH]; intros I; [destruct I|]. destruct I as [<- | I]; [exists x; split; [now left|exact H]|]. destruct (IH I) as (a & Ia & Ra). exists a. split; [now right|exact Ra]. Qed.
Lemma forall2_len {A B} (R : A -> B -> Prop) l k : Forall2 R l k -> List.length l = List.length k.
Proof. induction 1; cbn; congruence. Qed.
Lemma alike_nil n ms ds n' ms' fs : alike (Tree n ms ds) (Tree n' ms' fs) -> n = n' /\ ms = ms' /\ (ds = [] <-> fs = []).
Proof.
  intro H. inversion H as [? ? ? es ? F P]; subst. split; [reflexivity|]. split; [reflexivity|]. apply forall2_len in F. apply Permutation_length in P.
  destruct ds, fs; cbn in *; split; intro; try discriminate; try reflexivity; lia.
Qed.
Lemma clean_alike rules k t t' : alike t t' -> clean rules k t -> clean rules k t'.
Proof.
  revert t'. induction t as [n ms ds IH] using tree_ind'. intros t' H C. destruct (clean_inv _ _ _ _ _ C) as (H1 & H2 & H3 & H4 & H5 & H6 & H7).
  inversion H as [? ? ? es fs F P]; subst. destruct (alike_nil _ _ _ _ _ _ H) as (_ & _ & N). constructor; try assumption; [intro E; apply H6, N, E|].
  apply Forall_forall. intros f If. apply (Permutation_in f (Permutation_sym P)) in If. destruct (forall2_in_r _ _ _ _ F If) as (d & Id & Ad). rewrite Forall_forall in IH, H7. exact (IH d Id f Ad (H7 d Id)).
Qed.
Lemma fm_names_perm l k : Permutation l k -> Permutation (flat_map all_names l) (flat_map all_names k).
Proof. apply Permutation_flat_map. Qed.
Lemma alike_names t t' : alike t t' -> Permutation (all_names t) (all_names t').
Proof.
  revert t'. induction t as [n ms ds IH] using tree_ind'. intros t' H. inversion H as [? ? ? es fs F P]; subst. cbn [all_names]. constructor. rewrite <- (fm_names_perm _ _ P). clear H P fs.
  revert es F. induction IH as [|d l Hd _ IHl]; intros es F; inversion F; subst; [constructor|]. cbn [flat_map]. apply Permutation_app; auto.
Qed.

(** ** Completions *)
Section Rules.
  Variable rules : list rule.
  Let dec := decays rules.
  Let comp n := completions dec (ways rules n).

  Lemma completions_alike W t t' : alike t t' -> PermutationA same (completions dec W t) (completions dec W t').
  Proof.
    revert t'. induction t as [n ms ds IH] using tree_ind'. intros t' H. destruct t' as [n' ms' fs]. destruct (alike_nil _ _ _ _ _ _ H) as (<- & <- & N). inversion H as [? ? ? es ? F P]; subst.
    destruct ds as [|d ds]; [destruct fs as [|f fs]; [reflexivity|exfalso; now discriminate (proj1 N eq_refl)]|]. destruct fs as [|f fs]; [exfalso; now discriminate (proj2 N eq_refl)|].
    cbn [completions]. apply (map_perm samel same); [intros a b [K K']; split; [now apply alike_iff|exact K']|].
    transitivity (choices (map (completions dec W) es)); [|apply choices_perm; now apply Permutation_map]. apply choices_ext.
    clear N H P. revert es F. induction IH as [|e l He _ IHl]; intros es F; inversion F; subst; constructor; auto.
  Qed.

  Fixpoint ends_of (t : tree) : list str := let '(Tree n _ ds) := t in match ds with [] => [n] | _ => flat_map ends_of ds end.
  Lemma ends_names t x : In x (ends_of t) -> In x (all_names t).
  Proof.
    induction t as [n ms ds IH] using tree_ind'. cbn [ends_of all_names]. destruct ds as [|d r]; [intros [<- | []]; now left|]. intro H. right. apply in_flat_map in H as (e & Ie & He). apply in_flat_map. exists e. split; [exact Ie|].
    rewrite Forall_forall in IH. now apply IH.
  Qed.
  Lemma completions_ext W W' t : (forall x, In x (ends_of t) -> dec x = true -> W x = W' x) -> completions dec W t = completions dec W' t.
  Proof.
    induction t as [n ms ds IH] using tree_ind'. cbn [ends_of completions]. destruct ds as [|d r]; [intro H; destruct (dec n) eqn:E; [apply H; [now left|exact E]|reflexivity]|]. intro H. do 2 f_equal.
    apply map_ext_in. intros e Ie. rewrite Forall_forall in IH. apply (IH e Ie). intros x Ix. apply H. apply in_flat_map. now exists e.
  Qed.

  Variable rank : str -> nat.
  Hypothesis Hdesc : forall r, In r rules -> descends rules rank r /\ daughters_of (particle r) <> [].

  Lemma ends_daughters t : daughters_of t <> [] -> forall x, In x (ends_of t) -> In x (flat_map all_names (daughters_of t)).
  Proof. destruct t as [n ms [|d r]]; intros N x I; [now destruct N|]. change (In x (flat_map ends_of (d :: r))) in I. apply in_flat_map in I as (e & Ie & He). apply in_flat_map. exists e. split; [exact Ie|now apply ends_names]. Qed.
  Lemma rules_in x r : In r (filter (fun r => str_eqb (head_of r) x) rules) -> In r rules /\ head_of r = x.
  Proof. intro H. apply filter_In in H as [I E]. split; [exact I|]. destruct (str_eqb_spec (head_of r) x); [assumption|discriminate]. Qed.
  Lemma ways_stable k x : rank x < k -> forall n m, rank x < n -> rank x < m -> ways rules n x = ways rules m x.
  Proof.
    revert x. induction k as [|k IH]; intros x Hk n m Hn Hm; [lia|]. destruct n as [|n]; [lia|]. destruct m as [|m]; [lia|]. cbn [ways].
    assert (G : forall l, incl l (filter (fun r => str_eqb (head_of r) x) rules) -> flat_map (fun r => map (fun a => (fst a, r :: snd a)) (completions (decays rules) (ways rules n) (particle r))) l = flat_map (fun r => map (fun a => (fst a, r :: snd a)) (completions (decays rules) (ways rules m) (particle r))) l); [|apply G; intros ? ?; assumption].
    induction l as [|r l IHl]; intro Inc; [reflexivity|]. cbn [flat_map]. rewrite IHl by (intros y Iy; apply Inc; now right). f_equal. f_equal.
    destruct (rules_in x r (Inc r (or_introl eq_refl))) as [Ir Er]. destruct (Hdesc r Ir) as [D Nd]. apply completions_ext. intros y Iy Dy. pose proof (D y (ends_daughters _ Nd y Iy) Dy) as L. rewrite Er in L. apply IH; lia.
  Qed.
  Definition addc (r : rule) (a : tree * list rule) : tree * list rule := (fst a, r :: snd a).
  Lemma ways_unfold n x : rank x < n -> ways rules n x = flat_map (fun r => map (addc r) (comp n (particle r))) (filter (fun r => str_eqb (head_of r) x) rules).
  Proof.
    intro H. destruct n as [|n]; [lia|]. rewrite (ways_stable (S n) x H (S n) (S (S n)) H ltac:(lia)). reflexivity.
  Qed.
  Variable N : nat.
  Hypothesis Hrank : forall x, dec x = true -> rank x < N.
  Lemma dec_rule x : dec x = true -> exists r, In r (filter (fun r => str_eqb (head_of r) x) rules).
  Proof. intro H. apply existsb_exists in H as (r & I & E). exists r. apply filter_In. now split. Qed.
  Lemma choices_nonempty ls : Forall (fun l => l <> []) ls -> choices ls <> [].
  Proof. induction 1 as [|l ls Hl _ IH]; [discriminate|]. rewrite choices_cons. destruct l as [|a l]; [congruence|]. cbn [flat_map]. destruct (choices ls); [congruence|discriminate]. Qed.
  Lemma comp_nonempty_W W t : (forall x, dec x = true -> In x (ends_of t) -> W x <> []) -> completions dec W t <> [].
  Proof.
    induction t as [n ms ds IH] using tree_ind'. cbn [ends_of completions]. destruct ds as [|d r]; [intro H; destruct (dec n) eqn:E; [apply H; [exact E|now left]|discriminate]|]. intro H.
    assert (C : choices (map (completions dec W) (d :: r)) <> []).
    { apply choices_nonempty. apply Forall_forall. intros l Il. apply in_map_iff in Il as (e & <- & Ie). rewrite Forall_forall in IH. apply (IH e Ie). intros x Dx Ix. apply (H x Dx). apply in_flat_map. now exists e. }
    destruct (choices (map (completions dec W) (d :: r))); [congruence|discriminate].
  Qed.
  Lemma ways_nonempty k x : rank x < k -> dec x = true -> forall n, rank x < n -> ways rules n x <> [].
  Proof.
    revert x. induction k as [|k IH]; intros x Hk Dx n Hn; [lia|]. rewrite (ways_unfold n x Hn). destruct (dec_rule x Dx) as (r & Ir). destruct (rules_in x r Ir) as [Ir' Er]. destruct (Hdesc r Ir') as [D Nd].
    assert (C : comp n (particle r) <> []).
    { apply comp_nonempty_W. intros y Dy Iy. pose proof (D y (ends_daughters _ Nd y Iy) Dy) as L. rewrite Er in L. apply IH; [lia|exact Dy|lia]. }
    intro E. destruct (comp n (particle r)) as [|a l] eqn:Ec; [congruence|]. assert (I : In (addc r a) (flat_map (fun r => map (addc r) (comp n (particle r))) (filter (fun r => str_eqb (head_of r) x) rules))).
    { apply in_flat_map. exists r. split; [exact Ir|]. rewrite Ec. now left. }
    rewrite E in I. destruct I.
  Qed.
  Lemma comp_nonempty t : comp N t <> [].
  Proof. apply comp_nonempty_W. intros x Dx _. apply (ways_nonempty N); auto. Qed.

  (** *** Names *)
  Lemma choices_names ls : forall b, In b (choices ls) -> forall ds, Forall2 (fun d l => forall a, In a l -> exists ex, Permutation (all_names (fst a)) (all_names d ++ ex)) ds ls ->
    exists ex, Permutation (flat_map all_names (fst b)) (flat_map all_names ds ++ ex).
  Proof.
    induction ls as [|l ls IH]; intros b Ib ds F; inversion F as [|d ? ds' ? Hd F']; subst.
    - cbn in Ib. destruct Ib as [<- | []]. exists []. constructor.
    - rewrite choices_cons in Ib. apply in_flat_map in Ib as (a & Ia & Ib). apply in_map_iff in Ib as (c & <- & Ic). destruct (Hd a Ia) as (e1 & P1). destruct (IH c Ic ds' F') as (e2 & P2).
      exists (e1 ++ e2). cbn [pair_up fst flat_map]. rewrite P1, P2, <- !app_assoc. apply Permutation_app_head. rewrite !app_assoc. apply Permutation_app_tail. apply Permutation_app_comm.
  Qed.
  Lemma completions_names W t : (forall x a, In a (W x) -> exists ex, Permutation (all_names (fst a)) (x :: ex)) -> forall a, In a (completions dec W t) -> exists ex, Permutation (all_names (fst a)) (all_names t ++ ex).
  Proof.
    intro HW. induction t as [n ms ds IH] using tree_ind'. intros a. cbn [completions]. destruct ds as [|d r].
    - destruct (dec n); [intro I; exact (HW n a I)|]. intros [<- | []]. exists []. constructor. constructor.
    - intro I. apply in_map_iff in I as (b & <- & Ib). destruct (choices_names _ b Ib (d :: r)) as (ex & P).
      { clear - IH. induction IH; cbn [map]; constructor; assumption. }
      exists ex. cbn [all_names fst]. now rewrite P.
  Qed.
  Lemma ways_names n x a : In a (ways rules n x) -> exists ex, Permutation (all_names (fst a)) (x :: ex).
  Proof.
    revert x a. induction n as [|n IH]; intros x a; [intros []|]. cbn [ways]. intro I. apply in_flat_map in I as (r & Ir & I). apply in_map_iff in I as (b & <- & Ib). destruct (rules_in x r Ir) as [_ <-].
    destruct (completions_names (ways rules n) (particle r) IH b Ib) as (ex & P). unfold head_of. destruct (particle r) as [m ms ds]. cbn [all_names fst] in *. exists (flat_map all_names ds ++ ex). exact P.
  Qed.
  Lemma comp_names n t a : In a (comp n t) -> exists ex, Permutation (all_names (fst a)) (all_names t ++ ex).
  Proof. apply completions_names. intros x b. apply ways_names. Qed.

  (** *** One decay at a time *)
  Definition addl (r : rule) (b : list tree * list rule) : list tree * list rule := (fst b, r :: snd b).
  Lemma comp_sub_none n x u t : ends x t = 0 -> comp n (sub x u t) = comp n t.
  Proof. intro H. now rewrite sub_none. Qed.
  Lemma decay_list x l : (forall t, In t l -> ends x t = 1 -> PermutationA same (comp N t) (flat_map (fun r => map (addc r) (comp N (sub x (particle r) t))) (filter (fun r => str_eqb (head_of r) x) rules))) ->
    list_sum (map (ends x) l) = 1 ->
    PermutationA samel (choices (map (comp N) l)) (flat_map (fun r => map (addl r) (choices (map (comp N) (map (sub x (particle r)) l)))) (filter (fun r => str_eqb (head_of r) x) rules)).
  Proof.
    set (rs := filter (fun r => str_eqb (head_of r) x) rules). induction l as [|t l IH]; intros H S; [discriminate|]. cbn [map list_sum fold_right] in S.
    destruct (ends x t) as [|k] eqn:Et.
    - assert (IHl : PermutationA samel (choices (map (comp N) l)) (flat_map (fun r => map (addl r) (choices (map (comp N) (map (sub x (particle r)) l)))) rs)) by (apply IH; [intros; apply H; [now right|assumption]|exact S]).
      cbn [map]. rewrite choices_cons.
      transitivity (flat_map (fun a => flat_map (fun r => map (pair_up a) (map (addl r) (choices (map (comp N) (map (sub x (particle r)) l))))) rs) (comp N t)).
      { apply fm_ext; [typeclasses eauto|]. intros a _. rewrite <- map_fm. apply (map_perm samel samel); [|exact IHl]. intros b b' Hb. now apply pair_up_same. }
      transitivity (flat_map (fun r => flat_map (fun a => map (pair_up a) (map (addl r) (choices (map (comp N) (map (sub x (particle r)) l))))) (comp N t)) rs); [apply PA_of_P; [typeclasses eauto|]; apply fm_exchange|].
      apply fm_ext; [typeclasses eauto|]. intros r _. cbn [map]. rewrite choices_cons, map_fm, (comp_sub_none N x (particle r) t Et). apply fm_ext; [typeclasses eauto|]. intros a _. rewrite !map_map. apply map_extP. intros b _.
      split; cbn; [reflexivity|]. symmetry. apply Permutation_middle.
    - assert (Ek : k = 0) by lia. subst k. assert (Z : list_sum (map (ends x) l) = 0) by (unfold list_sum; lia). cbn [map].
      transitivity (flat_map (fun r => choices (map (addc r) (comp N (sub x (particle r) t)) :: map (comp N) l)) rs).
      { rewrite choices_cons. transitivity (flat_map (fun a => map (pair_up a) (choices (map (comp N) l))) (flat_map (fun r => map (addc r) (comp N (sub x (particle r) t))) rs)).
        - apply (fm_perm same samel); [|apply H; [now left|exact Et]]. intros a a' Ha. apply map_extP. intros b _. now apply pair_up_same.
        - rewrite fm_fm. reflexivity. }
      apply fm_ext; [typeclasses eauto|]. intros r _. rewrite (sub_none_list x (particle r) l Z), !choices_cons, fm_map, map_fm. apply fm_ext; [typeclasses eauto|]. intros a _. rewrite map_map. apply map_extP. intros b _. reflexivity.
  Qed.
  Lemma decay x t : dec x = true -> ends x t = 1 ->
    PermutationA same (comp N t) (flat_map (fun r => map (addc r) (comp N (sub x (particle r) t))) (filter (fun r => str_eqb (head_of r) x) rules)).
  Proof.
    intros Dx. induction t as [n ms ds IH] using tree_ind'. intro E. destruct ds as [|d l].
    - cbn [ends] in E. destruct (str_eqb_spec n x) as [-> | Nn]; [|discriminate]. cbn [sub]. rewrite str_eqb_refl. unfold comp at 1. cbn [completions]. rewrite Dx, (ways_unfold N x (Hrank x Dx)). reflexivity.
    - rewrite Forall_forall in IH. pose proof (decay_list x (d :: l) IH E) as D. unfold comp at 1. cbn [completions].
      transitivity (map (fun b => (Tree n ms (fst b), snd b)) (flat_map (fun r => map (addl r) (choices (map (comp N) (map (sub x (particle r)) (d :: l))))) (filter (fun r => str_eqb (head_of r) x) rules))).
      + apply (map_perm samel same); [|exact D]. intros a b [K K']. split; [now apply alike_iff|exact K'].
      + rewrite map_fm. apply fm_ext; [typeclasses eauto|]. intros r _.
        assert (Q : comp N (sub x (particle r) (Tree n ms (d :: l))) = map (fun b => (Tree n ms (fst b), snd b)) (choices (map (comp N) (map (sub x (particle r)) (d :: l))))) by reflexivity.
        rewrite Q. set (C := choices _). clearbody C. rewrite !map_map. apply map_extP. intros b _. reflexivity.
  Qed.
  Lemma comp_done t : (forall x, In x (ends_of t) -> dec x = false) -> comp N t = [(t, [])].
  Proof.
    induction t as [n ms ds IH] using tree_ind'. intro H. unfold comp. cbn [completions]. cbn [ends_of] in H. destruct ds as [|d l]; [now rewrite (H n (or_introl eq_refl))|].
    assert (C : choices (map (completions dec (ways rules N)) (d :: l)) = [(d :: l, [])]).
    { revert IH H. generalize (d :: l). intros k IH H. induction IH as [|e k He _ IHk]; [reflexivity|]. cbn [map flat_map] in *. rewrite choices_cons. fold (comp N) in *. rewrite He by (intros; apply H, in_or_app; now left). cbn [flat_map]. rewrite IHk by (intros; apply H, in_or_app; now right). reflexivity. }
    rewrite C. reflexivity.
  Qed.
End Rules.

(** ** Counting names *)
Definition cn (x : str) (l : list str) : nat := list_sum (map (fun n => if str_eqb n x then 1 else 0) l).
Lemma cn_app x l k : cn x (l ++ k) = cn x l + cn x k. Proof. unfold cn. now rewrite map_app, list_sum_app. Qed.
Lemma cn_fm {A} x (f : A -> list str) l : cn x (flat_map f l) = list_sum (map (fun a => cn x (f a)) l).
Proof. induction l as [|a l IH]; [reflexivity|]. cbn [flat_map map list_sum fold_right]. rewrite cn_app, IH. reflexivity. Qed.
Lemma cn_cons x a l : cn x (a :: l) = (if str_eqb a x then 1 else 0) + cn x l. Proof. reflexivity. Qed.
Lemma cn_perm x l k : Permutation l k -> cn x l = cn x k.
Proof. induction 1; unfold cn, list_sum in *; cbn [map fold_right] in *; lia. Qed.
Lemma cn_none x l : ~ In x l -> cn x l = 0.
Proof. induction l as [|a l IH]; intro H; [reflexivity|]. rewrite cn_cons, IH by (intro; apply H; now right). destruct (str_eqb_spec a x) as [-> | _]; [exfalso; apply H; now left|reflexivity]. Qed.
Lemma cn_once (f : str -> bool) x l : NoDup (filter f l) -> f x = true -> cn x l <= 1.
Proof.
  induction l as [|a l IH]; intros H E; [cbn; lia|]. cbn [filter] in H. rewrite cn_cons. destruct (str_eqb_spec a x) as [-> | Na].
  - rewrite E in H. inversion H as [|? ? NI ND]; subst. rewrite (cn_none x l); [lia|]. intro I. apply NI. apply filter_In. now split.
  - destruct (f a); [inversion H; subst|]; cbn [Nat.add]; auto.
Qed.
Lemma nodup_app_l {A} (l k : list A) : NoDup (l ++ k) -> NoDup l.
Proof. induction l as [|a l IH]; intro H; [constructor|]. inversion H; subst. constructor; [intro I; match goal with H : ~ In _ _ |- _ => apply H end; apply in_or_app; now left|auto]. Qed.
Lemma list_sum_le {A} (f g : A -> nat) l : (forall a, In a l -> f a <= g a) -> list_sum (map f l) <= list_sum (map g l).
Proof. induction l as [|a l IH]; intro H; [cbn; lia|]. cbn [map list_sum fold_right]. pose proof (H a (or_introl eq_refl)). pose proof (IH (fun b I => H b (or_intror I))). unfold list_sum in *. lia. Qed.
Lemma ends_le x t : ends x t <= cn x (all_names t).
Proof.
  induction t as [n ms ds IH] using tree_ind'. cbn [ends all_names]. destruct ds as [|d r]; [unfold cn; cbn; lia|]. change (n :: flat_map all_names (d :: r)) with ([n] ++ flat_map all_names (d :: r)). rewrite cn_app, cn_fm.
  rewrite Forall_forall in IH. pose proof (list_sum_le (ends x) (fun a => cn x (all_names a)) (d :: r) IH). lia.
Qed.
Lemma ends_ge x t : In x (ends_of t) -> 1 <= ends x t.
Proof.
  induction t as [n ms ds IH] using tree_ind'. cbn [ends_of ends]. destruct ds as [|d r]; [intros [-> | []]; rewrite str_eqb_refl; lia|]. intro H. apply in_flat_map in H as (e & Ie & He). rewrite Forall_forall in IH. specialize (IH e Ie He).
  revert Ie. generalize (d :: r). intros l Il. clear d r He. induction l as [|f l IHl]; [destruct Il|]. cbn [map list_sum fold_right]. destruct Il as [-> | Il]; [lia|]. specialize (IHl Il). unfold list_sum in *. lia.
Qed.
Lemma cn_sub x u t : cn x (all_names (sub x u t)) + ends x t = cn x (all_names t) + ends x t * cn x (all_names u).
Proof.
  induction t as [n ms ds IH] using tree_ind'. cbn [ends sub]. destruct ds as [|d r].
  - destruct (str_eqb_spec n x) as [-> | Nn]; [|lia]. cbn [all_names flat_map]. unfold cn at 2. cbn. rewrite str_eqb_refl. lia.
  - cbn [all_names]. change (cn x (n :: flat_map all_names (map (sub x u) (d :: r)))) with ((if str_eqb n x then 1 else 0) + cn x (flat_map all_names (map (sub x u) (d :: r)))).
    change (cn x (n :: flat_map all_names (d :: r))) with ((if str_eqb n x then 1 else 0) + cn x (flat_map all_names (d :: r))). rewrite !cn_fm, map_map.
    assert (S : list_sum (map (fun a => cn x (all_names (sub x u a))) (d :: r)) + list_sum (map (ends x) (d :: r)) = list_sum (map (fun a => cn x (all_names a)) (d :: r)) + list_sum (map (ends x) (d :: r)) * cn x (all_names u)); [|lia].
    clear - IH. induction IH as [|e l He _ IHl]; [reflexivity|]. cbn [map list_sum fold_right] in *. unfold list_sum in *. lia.
Qed.
Lemma alike_sub x u u' t : alike u u' -> alike (sub x u t) (sub x u' t).
Proof.
  intro H. induction t as [n ms ds IH] using tree_ind'. cbn [sub]. destruct ds as [|d r]; [destruct (str_eqb n x); [exact H|apply alike_refl]|].
  apply (alike_tree n ms _ (map (sub x u') (d :: r))); [|reflexivity]. clear -IH. induction IH; cbn [map]; constructor; assumption.
Qed.
Lemma clean_sub rules k x u t : clean rules k u -> clean rules k t -> clean rules k (sub x u t).
Proof.
  intro Cu. induction t as [n ms ds IH] using tree_ind'. intro C. destruct (clean_inv _ _ _ _ _ C) as (H1 & H2 & H3 & H4 & H5 & H6 & H7). cbn [sub]. destruct ds as [|d r]; [destruct (str_eqb n x); assumption|].
  constructor; try assumption; [discriminate|]. apply Forall_forall. intros e Ie. apply in_map_iff in Ie as (f & <- & If). rewrite Forall_forall in IH, H7. auto.
Qed.
Lemma daughters_sub x u t : daughters_of t <> [] -> daughters_of (sub x u t) <> [].
Proof. destruct t as [n ms [|d r]]; cbn; [congruence|discriminate]. Qed.
Lemma daughters_alike t t' : alike t t' -> daughters_of t <> [] -> daughters_of t' <> [].
Proof. destruct t as [n ms ds], t' as [n' ms' fs]. intro H. destruct (alike_nil _ _ _ _ _ _ H) as (_ & _ & E). cbn. tauto. Qed.
Lemma clean_bare rules k x t : decays rules x = true -> clean rules k t -> bare x t.
Proof.
  intro D. induction t as [n ms ds IH] using tree_ind'. intro C. destruct (clean_inv _ _ _ _ _ C) as (_ & _ & _ & _ & _ & H6 & H7). constructor; [intros E ->; now apply H6|].
  apply Forall_forall. intros e Ie. rewrite Forall_forall in IH, H7. auto.
Qed.
Lemma clean_occ rules k x t : decays rules x = true -> x <> [] -> clean rules k t -> total_occ x (tokens t) = cn x (all_names t).
Proof.
  intros D Nx. induction t as [n ms ds IH] using tree_ind'. intro C. destruct (clean_inv _ _ _ _ _ C) as (_ & _ & _ & H4 & H5 & _ & H7). cbn [tokens all_names].
  change (n :: ms ++ flat_map tokens ds) with ([n] ++ ms ++ flat_map tokens ds). change (n :: flat_map all_names ds) with ([n] ++ flat_map all_names ds). rewrite !total_occ_app, cn_app.
  assert (E1 : total_occ x [n] = cn x [n]). { unfold total_occ, cn. cbn. destruct (str_eqb_spec n x) as [-> | Nn]; [rewrite occ_self by exact Nx; reflexivity|]. rewrite within_occ; [reflexivity|]. intro W. apply Nn. symmetry. now apply H4. }
  assert (E2 : total_occ x ms = 0). { clear - H5 D. unfold total_occ. induction ms as [|m ms IH]; [reflexivity|]. cbn [map list_sum fold_right]. rewrite within_occ by (apply H5; [exact D|now left]). apply IH. intros y m' Dy Im. apply H5; [exact Dy|now right]. }
  rewrite E1, E2. cbn [Nat.add]. f_equal. clear - IH H7. induction IH as [|e l He _ IHl]; [reflexivity|]. cbn [flat_map]. rewrite total_occ_app, cn_app, He, IHl; [reflexivity|exact (Forall_inv_tail H7)|exact (Forall_inv H7)].
Qed.
Lemma clean_names rules k t : clean rules k t -> forall x, In x (all_names t) -> free_of punctuation x /\ forall y, decays rules y = true -> within y x -> y = x.
Proof.
  induction t as [n ms ds IH] using tree_ind'. intros C x I. destruct (clean_inv _ _ _ _ _ C) as (H1 & _ & _ & H4 & _ & _ & H7). cbn [all_names] in I. destruct I as [<- | I]; [now split|].
  apply in_flat_map in I as (e & Ie & Ix). rewrite Forall_forall in IH, H7. exact (IH e Ie (H7 e Ie) x Ix).
Qed.
Lemma leaves_ends t : daughters_of t <> [] -> leaves t = ends_of t.
Proof.
  induction t as [n ms ds IH] using tree_ind'. cbn [daughters_of]. intro N. cbn [leaves ends_of]. destruct ds as [|d r]; [congruence|]. clear N. induction IH as [|[m ks es] l He _ IHl]; [reflexivity|]. cbn [flat_map]. rewrite IHl. f_equal.
  destruct es as [|e es]; [reflexivity|]. rewrite He by (cbn; discriminate). reflexivity.
Qed.
Lemma PA_fm_len {A} (P : A -> Prop) l : Forall P l -> forall a, In a l -> P a. Proof. intros H a I. rewrite Forall_forall in H. auto. Qed.

(** ** The loop *)
Section Loop.
  Variables (w : world) (rules : list rule) (rank : str -> nat) (N : nat).
  Hypothesis Ho : order_ok w.
  Hypothesis Hr : forall r, In r rules -> rule_ok rules w r /\ descends rules rank r.
  Hypothesis HN : forall x, decays rules x = true -> rank x < N.
  Let dec := decays rules.
  Let comp := completions dec (ways rules N).

  Lemma rule_tree r : rule_ok rules w r -> exists u, rname r = text u /\ clean rules (known w) u /\ daughters_of u <> [] /\ alike u (particle r).
  Proof.
    intros (u & E & R & C & D). exists u. split; [exact E|]. split; [exact C|]. split; [exact D|]. specialize (R (height u) (le_n _)). rewrite E, (read_text rules w u C _ (le_n _)) in R. injection R as <-. now apply canon_alike.
  Qed.
  Lemma Hdesc : forall r, In r rules -> descends rules rank r /\ daughters_of (particle r) <> [].
  Proof. intros r I. destruct (Hr r I) as [K D]. split; [exact D|]. destruct (rule_tree r K) as (u & _ & _ & Nd & A). now apply (daughters_alike u). Qed.
  Lemma dec_ok x : dec x = true -> x <> [] /\ free_of punctuation x.
  Proof.
    intro D. apply existsb_exists in D as (r & I & E). destruct (str_eqb_spec (head_of r) x) as [<- | _]; [|discriminate]. clear E. destruct (Hr r I) as [K De]. destruct (rule_tree r K) as (u & _ & C & Nd & A).
    pose proof (alike_names _ _ A) as P. assert (Ih : In (head_of r) (all_names u)). { apply (Permutation_in _ (Permutation_sym P)). unfold head_of. destruct (particle r). now left. }
    split; [|now apply (clean_names _ _ _ C)]. intro E0. assert (Dh : dec (head_of r) = true) by (apply existsb_exists; exists r; split; [exact I|apply str_eqb_refl]).
    destruct (particle r) as [n ms ds] eqn:Ep. pose proof (daughters_alike _ _ A Nd) as Nd'. destruct ds as [|[m ks es] l]; [now apply Nd'|]. assert (Im : In m (flat_map all_names (daughters_of (particle r)))) by (rewrite Ep; now left).
    assert (Em : head_of r = m). { apply (clean_names _ _ _ C m); [apply (Permutation_in _ (Permutation_sym P)); cbn [all_names flat_map]; right; now left|exact Dh|]. rewrite E0. exists [], m. reflexivity. }
    assert (Dm : dec m = true) by (now rewrite <- Em). pose proof (De m Im Dm) as L. rewrite <- Em in L. lia.
  Qed.

  Definition state_ok (K : nat) (t : tree) : Prop := clean rules (known w) t /\ daughters_of t <> [] /\ forall a, In a (comp t) -> NoDup (filter dec (all_names (fst a))) /\ List.length (snd a) <= K.
  Definition state_of (a : tree * list rule) : amplitude := (Some (fst a), snd a).
  Definition extend (cs : list rule) (a : tree * list rule) : tree * list rule := (fst a, cs ++ snd a).
  Definition all_of (L : list (tree * list rule)) : list (tree * list rule) := flat_map (fun s => map (extend (snd s)) (comp (fst s))) L.

  Lemma state_names K t : state_ok K t -> NoDup (filter dec (all_names t)).
  Proof.
    intros (_ & _ & H). assert (Ne : comp t <> []) by exact (comp_nonempty rules rank Hdesc N HN t). destruct (comp t) as [|a l] eqn:E; [congruence|]. destruct (H a (or_introl eq_refl)) as [Nd _].
    destruct (comp_names rules N t a) as (ex & P); [change (In a (comp t)); rewrite E; now left|].
    assert (Q : Permutation (filter dec (all_names (fst a))) (filter dec (all_names t) ++ filter dec ex)).
    { rewrite <- filter_app. clear - P. induction P; cbn; [constructor|destruct (dec x); [now constructor|assumption]|destruct (dec x), (dec y); repeat constructor; reflexivity || apply perm_swap|etransitivity; eassumption]. }
    apply (Permutation_NoDup Q) in Nd. exact (nodup_app_l _ _ Nd).
  Qed.

  Lemma step K t x r : state_ok K t -> dec x = true -> In x (ends_of t) -> In r (rulesForDecay rules x []) ->
    exists t', (exists F, forall fuel, F <= fuel -> exists s, replaceAll fuel (text t) x (rname r) = Ok s /\ read w fuel s = Ok (Some t')) /\
    alike t' (sub x (particle r) t) /\ clean rules (known w) t' /\ daughters_of t' <> [].
  Proof.
    intros S Dx Ix Ir. pose proof (state_names K t S) as Nd. destruct S as (C & D & _). destruct (rules_in rules x r Ir) as [Ir' Eh]. destruct (Hr r Ir') as [Kr De]. destruct (rule_tree r Kr) as (u & Eu & Cu & Du & Au). destruct (dec_ok x Dx) as [Nx Fx].
    assert (C1 : ends x t = 1). { pose proof (cn_once dec x _ Nd Dx). pose proof (ends_le x t). pose proof (ends_ge x t Ix). lia. }
    assert (C2 : cn x (all_names t) = 1). { pose proof (cn_once dec x _ Nd Dx). pose proof (ends_le x t). lia. }
    assert (C3 : cn x (all_names u) = 1).
    { rewrite (cn_perm x _ _ (alike_names _ _ Au)). unfold head_of in Eh. destruct (particle r) as [n ms ds] eqn:Ep. subst n. change (all_names (Tree x ms ds)) with ([x] ++ flat_map all_names ds). rewrite cn_app.
      rewrite (cn_none x (flat_map all_names ds)); [unfold cn; cbn; rewrite str_eqb_refl; lia|]. intro I. specialize (De x). rewrite Ep in De. specialize (De I Dx). unfold head_of in De. rewrite Ep in De. lia. }
    assert (C4 : cn x (all_names (sub x u t)) = 1) by (pose proof (cn_sub x u t); lia).
    pose proof (clean_sub rules (known w) x u t Cu C) as Cs.
    exists (canon w (sub x u t)). split; [|split; [|split; [apply (clean_alike _ _ (sub x u t)); [now apply canon_alike|exact Cs]|apply (daughters_alike (sub x u t)); [now apply canon_alike|now apply daughters_sub]]]].
    - exists (Nat.max 2 (height (sub x u t))). intros fuel Hf. exists (text (sub x u t)). split; [|apply (read_text rules); [exact Cs|lia]].
      destruct (text_sub x t (clean_bare rules _ x t Dx C) C1) as (pre & post & P & Q).
      assert (T : exists tail, tail <> [] /\ text u = x ++ tail).
      { destruct u as [n ms ds]. inversion Au as [? ? ? es fs _ _ E1 E2]; subst. unfold head_of in Ir. unfold head_of. rewrite <- E2. cbn [daughters_of] in Du. destruct ds as [|d l]; [congruence|]. cbn [text]. unfold head_text. destruct ms as [|m ms].
        - eexists. split; [|reflexivity]. discriminate.
        - rewrite <- app_assoc. eexists. split; [|reflexivity]. discriminate. }
      destruct T as (tail & Nt & Et). rewrite Eu, P, Q, Et. apply replace_once; [exact Nx|exact Nt| | |lia].
      + rewrite <- P, occ_text by assumption. now rewrite (clean_occ rules (known w)).
      + rewrite <- Et, <- Q, occ_text by assumption. now rewrite (clean_occ rules (known w)).
    - etransitivity; [symmetry; now apply canon_alike|]. now apply alike_sub.
  Qed.

  Lemma comp_step t x : dec x = true -> ends x t = 1 -> PermutationA same (comp t) (flat_map (fun r => map (addc r) (comp (sub x (particle r) t))) (rulesForDecay rules x [])).
  Proof. intros D E. exact (decay rules rank Hdesc N HN x t D E). Qed.
  Lemma ends_once K t x : state_ok K t -> dec x = true -> In x (ends_of t) -> ends x t = 1.
  Proof. intros S Dx Ix. pose proof (cn_once dec x _ (state_names K t S) Dx). pose proof (ends_le x t). pose proof (ends_ge x t Ix). lia. Qed.

  (** one amplitude in one round *)
  Lemma round_one K t cs : state_ok K t -> exists L F, (forall fuel, F <= fuel ->
      match find (hasDecay rules) (final_states (Some t)) with
      | None => Ok [state_of (t, cs)]
      | Some x => collect (fun r => bind (replaceAll fuel (uniqueString (Some t)) x (rname r)) (fun s => bind (read w fuel s) (fun o => Ok [(o, cs ++ [r])]))) (rulesForDecay rules x [])
      end = Ok (map state_of L)) /\
    Forall (fun s => state_ok (K - 1) (fst s)) L /\ PermutationA same (all_of L) (all_of [(t, cs)]).
  Proof.
    intro S. pose proof S as (C & D & Hc). cbn [final_states]. rewrite (leaves_ends t D). destruct (find (hasDecay rules) (ends_of t)) as [x|] eqn:Ef.
    - apply find_some in Ef as [Ix Dx]. change (dec x = true) in Dx. pose proof (ends_once K t x S Dx Ix) as E1. pose proof (comp_step t x Dx E1) as Dec.
      assert (G : forall l, incl l (rulesForDecay rules x []) -> exists L F, (forall fuel, F <= fuel -> collect (fun r => bind (replaceAll fuel (uniqueString (Some t)) x (rname r)) (fun s => bind (read w fuel s) (fun o => Ok [(o, cs ++ [r])]))) l = Ok (map state_of L)) /\
        Forall (fun s => state_ok (K - 1) (fst s)) L /\ PermutationA same (all_of L) (map (extend cs) (flat_map (fun r => map (addc r) (comp (sub x (particle r) t))) l))).
      { induction l as [|r l IH]; intro Inc; [exists [], 0; split; [reflexivity|split; [constructor|reflexivity]]|].
        destruct IH as (L & F & HL & SL & PL); [intros y Iy; apply Inc; now right|]. destruct (step K t x r S Dx Ix (Inc r (or_introl eq_refl))) as (t' & (F' & Hs) & A & C' & D').
        exists ((t', cs ++ [r]) :: L), (Nat.max F F'). split; [|split].
        - intros fuel Hf. cbn [collect uniqueString]. destruct (Hs fuel ltac:(lia)) as (s & -> & R). cbn [bind]. rewrite R. cbn [bind]. rewrite HL by lia. reflexivity.
        - constructor; [|exact SL]. cbn [fst]. split; [exact C'|]. split; [exact D'|]. intros a Ia. pose proof (completions_alike rules (ways rules N) t' _ A) as PA. destruct (PA_in same _ _ a PA Ia) as (b & Ib & [Ab Pb]).
          assert (Ic : In (addc r b) (flat_map (fun r => map (addc r) (comp (sub x (particle r) t))) (rulesForDecay rules x []))) by (apply in_flat_map; exists r; split; [apply Inc; now left|now apply in_map]).
          assert (Dec' : PermutationA same (flat_map (fun r => map (addc r) (comp (sub x (particle r) t))) (rulesForDecay rules x [])) (comp t)) by (symmetry; exact Dec).
          destruct (PA_in same _ _ (addc r b) Dec' Ic) as (c & Ic' & [Ac Pc]). destruct (Hc c Ic') as [Nd Len]. split.
          + assert (P : Permutation (all_names (fst c)) (all_names (fst a))) by (symmetry; etransitivity; [apply (alike_names _ _ Ab)|exact (alike_names _ _ Ac)]).
            assert (Q : Permutation (filter dec (all_names (fst c))) (filter dec (all_names (fst a)))).
            { clear - P. induction P; cbn; [constructor|destruct (dec x); [now constructor|assumption]|destruct (dec x), (dec y); repeat constructor; reflexivity || apply perm_swap|etransitivity; eassumption]. }
            exact (Permutation_NoDup Q Nd).
          + apply Permutation_length in Pb, Pc. cbn [addc snd List.length] in Pc. lia.
        - unfold all_of. cbn [flat_map fst snd]. fold (all_of L). rewrite map_app. apply PA_app; [typeclasses eauto| |exact PL].
          transitivity (map (extend (cs ++ [r])) (comp (sub x (particle r) t))); [apply (map_perm same same); [intros a b [H1 H2]; split; [exact H1|cbn; now apply Permutation_app_head]|apply completions_alike; exact A]|].
          rewrite map_map. apply map_extP. intros a _. split; cbn; [reflexivity|]. now rewrite <- app_assoc. }
      destruct (G (rulesForDecay rules x []) (fun y Iy => Iy)) as (L & F & HL & SL & PL). exists L, F. split; [exact HL|]. split; [exact SL|]. rewrite PL. unfold all_of. cbn [flat_map fst snd]. rewrite app_nil_r. apply (map_perm same same); [intros a b [H1 H2]; split; [exact H1|cbn; now apply Permutation_app_head]|]. now symmetry.
    - exists [(t, cs)], 0. split; [reflexivity|]. split; [|reflexivity]. constructor; [|constructor]. split; [exact C|]. split; [exact D|]. cbn [fst].
      assert (E : comp t = [(t, [])]). { apply comp_done. intros x Ix. pose proof (find_none _ _ Ef x Ix) as Q. exact Q. }
      rewrite E in *. intros a Ia. destruct (Hc a Ia) as [Nd _]. destruct Ia as [<- | []]. split; [exact Nd|cbn; lia].
  Qed.
  Lemma round_all K L : Forall (fun s => state_ok K (fst s)) L -> exists L' F, (forall fuel, F <= fuel -> round w fuel rules (map state_of L) = Ok (map state_of L')) /\
    Forall (fun s => state_ok (K - 1) (fst s)) L' /\ PermutationA same (all_of L') (all_of L).
  Proof.
    induction 1 as [|[t cs] L Hs _ (L' & F & HL & SL & PL)]; [exists [], 0; split; [reflexivity|split; [constructor|reflexivity]]|].
    destruct (round_one K t cs Hs) as (L1 & F1 & H1 & S1 & P1). exists (L1 ++ L'), (Nat.max F F1). split; [|split].
    - intros fuel Hf. unfold round in *. cbn [map collect state_of fst snd]. rewrite (H1 fuel) by lia. cbn [bind]. rewrite HL by lia. cbn [bind]. now rewrite map_app.
    - apply Forall_app. now split.
    - unfold all_of in *. rewrite flat_map_app. cbn [flat_map] in *. rewrite app_nil_r in P1. apply PA_app; [typeclasses eauto|exact P1|exact PL].
  Qed.
  Lemma no_expand L : Forall (fun s => daughters_of (fst s) <> []) L -> existsb (canExpand rules) (map state_of L) = false -> all_of L = L.
  Proof.
    induction 1 as [|[t cs] L Hs _ IH]; intro E; [reflexivity|]. cbn [map existsb] in E. apply orb_false_iff in E as [E1 E2]. unfold all_of. cbn [flat_map fst snd]. fold (all_of L). rewrite (IH E2).
    unfold canExpand in E1. cbn [state_of fst final_states] in E1. cbn [fst] in Hs. rewrite (leaves_ends t Hs) in E1.
    assert (Q : comp t = [(t, [])]). { apply comp_done. intros x Ix. destruct (decays rules x) eqn:Dx; [|reflexivity]. exfalso. assert (K : existsb (hasDecay rules) (ends_of t) = true) by (apply existsb_exists; now exists x). congruence. }
    rewrite Q. unfold extend. cbn. now rewrite app_nil_r.
  Qed.
  Lemma done0 L : Forall (fun s => state_ok 0 (fst s)) L -> existsb (canExpand rules) (map state_of L) = false.
  Proof.
    induction 1 as [|[t cs] L Hs _ IH]; [reflexivity|]. cbn [map existsb]. rewrite IH, orb_false_r. unfold canExpand. cbn [state_of fst final_states] in *. pose proof Hs as (C & D & Hc). rewrite (leaves_ends t D).
    destruct (existsb (hasDecay rules) (ends_of t)) eqn:E; [|reflexivity]. exfalso. apply existsb_exists in E as (x & Ix & Dx). change (dec x = true) in Dx. pose proof (comp_step t x Dx (ends_once 0 t x Hs Dx Ix)) as Dec.
    assert (Ne : comp t <> []) by exact (comp_nonempty rules rank Hdesc N HN t). destruct (comp t) as [|a l] eqn:Ec; [congruence|]. destruct (PA_in same _ _ a Dec (or_introl eq_refl)) as (b & Ib & [_ Pb]).
    apply in_flat_map in Ib as (r & _ & Ib). apply in_map_iff in Ib as (c & <- & _). destruct (Hc a (or_introl eq_refl)) as [_ Len]. apply Permutation_length in Pb. cbn in Pb. lia.
  Qed.
  Lemma rounds_all K : forall L, Forall (fun s => state_ok K (fst s)) L -> exists out F, (forall fuel n, F <= fuel -> K < n -> rounds n w fuel rules (map state_of L) = Ok (map state_of out)) /\ PermutationA same out (all_of L) /\
    Forall (fun s => clean rules (known w) (fst s) /\ daughters_of (fst s) <> [] /\ forall x, In x (leaves (fst s)) -> dec x = false) out.
  Proof.
    assert (Stop : forall K L, Forall (fun s => state_ok K (fst s)) L -> existsb (canExpand rules) (map state_of L) = false -> Forall (fun s => clean rules (known w) (fst s) /\ daughters_of (fst s) <> [] /\ forall x, In x (leaves (fst s)) -> dec x = false) L).
    { clear K. intros K L H E. apply Forall_forall. intros s Is. rewrite Forall_forall in H. destruct (H s Is) as (C & D & _). split; [exact C|]. split; [exact D|]. intros x Ix. destruct (dec x) eqn:Dx; [|reflexivity]. exfalso.
      assert (Q : existsb (canExpand rules) (map state_of L) = true) by (apply existsb_exists; exists (state_of s); split; [now apply in_map|]; apply existsb_exists; exists x; split; [exact Ix|exact Dx]). congruence. }
    induction K as [|K IH]; intros L HL.
    - destruct (round_all 0 L HL) as (L' & F & HR & SL & PL). exists L', F. pose proof (done0 L' SL) as E. split; [|split].
      + intros fuel n Hf Hn. destruct n as [|n]; [lia|]. cbn [rounds]. rewrite HR by exact Hf. cbn [bind]. now rewrite E.
      + rewrite <- PL. rewrite no_expand; [reflexivity| |exact E]. eapply Forall_impl; [|exact SL]. intros s (_ & D & _). exact D.
      + now apply (Stop 0).
    - destruct (round_all (S K) L HL) as (L' & F & HR & SL & PL). replace (S K - 1) with K in SL by lia. destruct (existsb (canExpand rules) (map state_of L')) eqn:E.
      + destruct (IH L' SL) as (out & F' & HO & PO & SO). exists out, (Nat.max F F'). split; [|split; [etransitivity; eassumption|exact SO]]. intros fuel n Hf Hn. destruct n as [|n]; [lia|]. cbn [rounds]. rewrite HR by lia. cbn [bind]. rewrite E. apply HO; lia.
      + exists L', F. split; [|split].
        * intros fuel n Hf Hn. destruct n as [|n]; [lia|]. cbn [rounds]. rewrite HR by exact Hf. cbn [bind]. now rewrite E.
        * rewrite <- PL. rewrite no_expand; [reflexivity| |exact E]. eapply Forall_impl; [|exact SL]. intros s (_ & D & _). exact D.
        * now apply (Stop K).
  Qed.
  Lemma expand_ok c : rule_ok rules w c -> (forall a, In a (combinations rules N c) -> NoDup (filter dec (all_names (fst a)))) ->
    exists out F, (forall fuel, F <= fuel -> expand w fuel rules c = Ok (map state_of out)) /\ PermutationA same out (combinations rules N c) /\
    Forall (fun s => clean rules (known w) (fst s) /\ daughters_of (fst s) <> [] /\ forall x, In x (leaves (fst s)) -> dec x = false) out.
  Proof.
    intros Kc Nd. destruct (rule_tree c Kc) as (u & _ & Cu & Du & Au). set (K := list_max (map (fun a => List.length (snd a)) (comp (particle c)))).
    assert (S : state_ok K (particle c)).
    { split; [now apply (clean_alike _ _ u)|]. split; [now apply (daughters_alike u)|]. intros a Ia. split; [apply (Nd (addc c a)); unfold combinations; now apply (in_map (addc c))|].
      unfold K. clear - Ia. induction (comp (particle c)) as [|b l IH]; [destruct Ia|]. cbn [map list_max fold_right]. destruct Ia as [<- | Ia]; [lia|]. specialize (IH Ia). unfold list_max in *. lia. }
    destruct (rounds_all K [(particle c, [c])]) as (out & F & HO & PO & SO); [constructor; [exact S|constructor]|]. exists out, (Nat.max F (Datatypes.S K)). split; [|split; [|exact SO]].
    - intros fuel Hf. unfold expand. apply HO; lia.
    - rewrite PO. unfold all_of, combinations. cbn [flat_map fst snd]. rewrite app_nil_r. reflexivity.
  Qed.
End Loop.

(** ** Couplings *)
From Coq Require Import Reals Lra.
Lemma cmul_comm a b : cmul a b = cmul b a. Proof. unfold cmul. f_equal; ring. Qed.
Lemma cmul_assoc a b c : cmul a (cmul b c) = cmul (cmul a b) c. Proof. unfold cmul. cbn [fst snd]. f_equal; ring. Qed.
Lemma cmul_one a : cmul (1, 0)%R a = a. Proof. destruct a. unfold cmul. cbn [fst snd]. f_equal; ring. Qed.
Lemma total_from z l : fold_left (fun prod r => cmul prod (at_ (coupling r))) l z = cmul z (total l).
Proof.
  unfold total. revert z. induction l as [|r l IH]; intro z; cbn [fold_left]; [rewrite cmul_comm; now rewrite cmul_one|]. rewrite IH, (IH (cmul (1, 0)%R _)). now rewrite cmul_one, cmul_assoc.
Qed.
Lemma total_cons r l : total (r :: l) = cmul (at_ (coupling r)) (total l).
Proof. unfold total at 1. cbn [fold_left]. rewrite total_from. now rewrite cmul_one. Qed.
Lemma total_perm l k : Permutation l k -> total l = total k.
Proof. induction 1; [reflexivity|now rewrite !total_cons, IHPermutation|rewrite !total_cons, !cmul_assoc; f_equal; apply cmul_comm|congruence]. Qed.

(** ** Matching *)
Definition free (y : str) (fs : list (str * bool)) : nat := cn y (map fst (filter (fun p => negb (snd p)) fs)).
Lemma use_free x fs y : free y (use x fs) = free y fs - (if str_eqb x y then 1 else 0).
Proof.
  induction fs as [|[z u] fs IH]; [reflexivity|]. cbn [use]. unfold free in *. destruct u; cbn [orb].
  - cbn [filter snd negb]. exact IH.
  - destruct (str_eqb_spec x z) as [-> | Nz]; cbn [negb filter snd map fst]; rewrite ?cn_cons.
    + destruct (str_eqb_spec z y); lia.
    + rewrite IH. destruct (str_eqb_spec x y) as [-> | _]; [|lia]. destruct (str_eqb_spec z y) as [-> | _]; [congruence|lia].
Qed.
Lemma uses_free l fs y : free y (fold_left (fun st x => use x st) l fs) = free y fs - cn y l.
Proof. revert fs. induction l as [|x l IH]; intro fs; cbn [fold_left]; [cbn; lia|]. rewrite IH, use_free, cn_cons. lia. Qed.
Lemma good_free fs : forallb snd fs = true <-> forall y, free y fs = 0.
Proof.
  induction fs as [|[z u] fs IH]; [split; reflexivity|]. cbn [forallb snd]. unfold free in *. destruct u; cbn [andb filter snd negb]; [exact IH|]. split; [discriminate|]. intro H. specialize (H z). cbn [map fst] in H. rewrite cn_cons, str_eqb_refl in H. lia.
Qed.
Lemma isStateGood_spec t fs : isStateGood t fs = true <-> forall y, cn y fs <= cn y (leaves t).
Proof.
  unfold isStateGood. rewrite good_free. assert (F : forall y, free y (map (fun y => (y, false)) fs) = cn y fs). { intro y. unfold free. induction fs as [|z fs IH]; [reflexivity|]. cbn [map filter snd negb fst]. now rewrite !cn_cons, IH. }
  split; intros H y; specialize (H y); rewrite uses_free, F in *; lia.
Qed.

Section Matching.
  Variables (w : world) (fuel : nat) (rules : list rule) (fs : list str).
  Definition candidate (a : amplitude) (p : tree) : Prop := read w fuel (uniqueString (fst a)) = Ok (Some p) /\ isStateGood p fs = true.
  Lemma match_fold e : forall l out, fold_left (match_step w fuel fs) e (Ok l) = Ok out -> NoDup (map (fun x => text (fst x)) l) ->
    NoDup (map (fun x => text (fst x)) out) /\ (exists new, out = l ++ new /\ forall x, In x new -> exists a, In a e /\ candidate a (fst x) /\ snd x = snd a) /\
    (forall a p, In a e -> candidate a p -> In (text p) (map (fun x => text (fst x)) out)).
  Proof.
    induction e as [|a e IH]; intros l out H Nd; cbn [fold_left] in H.
    - injection H as <-. split; [exact Nd|]. split; [exists []; split; [now rewrite app_nil_r|intros x []]|intros a p []].
    - assert (St : exists l', match_step w fuel fs (Ok l) a = Ok l').
      { destruct (match_step w fuel fs (Ok l) a) as [l'| | |] eqn:E; [eauto| | |]; exfalso; clear - H; induction e as [|b e IHe]; cbn [fold_left] in H; try discriminate; cbn in H; now apply IHe. }
      destruct St as (l' & Es). rewrite Es in H. unfold match_step in Es. cbn [bind] in Es. destruct (read w fuel (uniqueString (fst a))) as [[p|]| | |] eqn:R; cbn [bind] in Es; try discriminate.
      + destruct (isStateGood p fs) eqn:G; cbn [andb] in Es.
        * destruct (existsb (fun x => str_eqb (text (fst x)) (text p)) l) eqn:X; cbn [negb] in Es.
          -- injection Es as <-. destruct (IH l out H Nd) as (A & (new & En & B) & C). split; [exact A|]. split; [exists new; split; [exact En|]; intros x Ix; destruct (B x Ix) as (b & Ib & Hb); exists b; split; [now right|exact Hb]|].
             intros b q [<- | Ib] [Rq Gq]; [|exact (C b q Ib (conj Rq Gq))]. rewrite R in Rq. injection Rq as <-. apply existsb_exists in X as (x & Ix & Ex). destruct (str_eqb_spec (text (fst x)) (text p)) as [<- | _]; [|discriminate]. rewrite En, map_app. apply in_or_app. left. exact (in_map (fun x => text (fst x)) l x Ix).
          -- injection Es as <-. assert (Nd' : NoDup (map (fun x => text (fst x)) (l ++ [(p, snd a)]))).
             { rewrite map_app. cbn [map fst]. apply (Permutation_NoDup (l := text p :: map (fun x => text (fst x)) l)); [apply Permutation_cons_append|]. constructor; [|exact Nd]. intro I. apply in_map_iff in I as (x & Ex & Ix).
               assert (Q : existsb (fun x => str_eqb (text (fst x)) (text p)) l = true) by (apply existsb_exists; exists x; split; [exact Ix|rewrite Ex; apply str_eqb_refl]). congruence. }
             destruct (IH _ out H Nd') as (A & (new & En & B) & C). split; [exact A|]. split.
             ++ exists ((p, snd a) :: new). split; [now rewrite En, <- app_assoc|]. intros x [<- | Ix]; [exists a; split; [now left|split; [split; assumption|reflexivity]]|]. destruct (B x Ix) as (b & Ib & Hb); exists b; split; [now right|exact Hb].
             ++ intros b q [<- | Ib] [Rq Gq]; [|exact (C b q Ib (conj Rq Gq))]. rewrite R in Rq. injection Rq as <-. rewrite En, !map_app. apply in_or_app. left. apply in_or_app. right. now left.
        * injection Es as <-. destruct (IH l out H Nd) as (A & (new & En & B) & C). split; [exact A|]. split; [exists new; split; [exact En|]; intros x Ix; destruct (B x Ix) as (b & Ib & Hb); exists b; split; [now right|exact Hb]|].
          intros b q [<- | Ib] [Rq Gq]; [|exact (C b q Ib (conj Rq Gq))]. rewrite R in Rq. injection Rq as <-. congruence.
      + injection Es as <-. destruct (IH l out H Nd) as (A & (new & En & B) & C). split; [exact A|]. split; [exists new; split; [exact En|]; intros x Ix; destruct (B x Ix) as (b & Ib & Hb); exists b; split; [now right|exact Hb]|].
        intros b q [<- | Ib] [Rq Gq]; [congruence|exact (C b q Ib (conj Rq Gq))].
  Qed.
  Lemma matching_fold pre rs : forall l out, fold_left (fun rt r => if str_eqb (prefix r) pre then bind rt (fun l => bind (expand w fuel rules r) (fun e => fold_left (match_step w fuel fs) e (Ok l))) else rt) rs (Ok l) = Ok out ->
    NoDup (map (fun x => text (fst x)) l) ->
    NoDup (map (fun x => text (fst x)) out) /\ (exists new, out = l ++ new /\ forall x, In x new -> exists r e a, In r rs /\ prefix r = pre /\ expand w fuel rules r = Ok e /\ In a e /\ candidate a (fst x) /\ snd x = snd a) /\
    (forall r e a p, In r rs -> prefix r = pre -> expand w fuel rules r = Ok e -> In a e -> candidate a p -> In (text p) (map (fun x => text (fst x)) out)).
  Proof.
    induction rs as [|r rs IH]; intros l out H Nd; cbn [fold_left] in H.
    - injection H as <-. split; [exact Nd|]. split; [exists []; split; [now rewrite app_nil_r|intros x []]|intros ? ? ? ? []].
    - destruct (str_eqb_spec (prefix r) pre) as [Ep | Np].
      + cbn [bind] in H. destruct (expand w fuel rules r) as [e| | |] eqn:Ex; cbn [bind] in H.
        2,3,4: (exfalso; clear - H; induction rs as [|b rs IHe]; cbn [fold_left] in H; [discriminate|]; destruct (str_eqb (prefix b) pre); cbn [bind] in H; now apply IHe).
        destruct (fold_left (match_step w fuel fs) e (Ok l)) as [l'| | |] eqn:El.
        2,3,4: (exfalso; clear - H; induction rs as [|b rs IHe]; cbn [fold_left] in H; [discriminate|]; destruct (str_eqb (prefix b) pre); cbn [bind] in H; now apply IHe).
        destruct (match_fold e l l' El Nd) as (A1 & (new1 & E1 & B1) & C1). destruct (IH l' out H A1) as (A & (new & En & B) & C). split; [exact A|]. split.
        * exists (new1 ++ new). split; [now rewrite En, E1, <- app_assoc|]. intros x Ix. apply in_app_or in Ix as [Ix | Ix].
          -- destruct (B1 x Ix) as (a & Ia & Ha). exists r, e, a. split; [now left|]. now split.
          -- destruct (B x Ix) as (r' & e' & a & Ir & Hr). exists r', e', a. split; [now right|exact Hr].
        * intros r' e' a p [<- | Ir] Pr Xr Ia Ca; [|exact (C r' e' a p Ir Pr Xr Ia Ca)]. rewrite Ex in Xr. injection Xr as <-. rewrite En, map_app. apply in_or_app. left. exact (C1 a p Ia Ca).
      + destruct (IH l out H Nd) as (A & (new & En & B) & C). split; [exact A|]. split.
        * exists new. split; [exact En|]. intros x Ix. destruct (B x Ix) as (r' & e' & a & Ir & Hr). exists r', e', a. split; [now right|exact Hr].
        * intros r' e' a p [<- | Ir] Pr Xr Ia Ca; [congruence|exact (C r' e' a p Ir Pr Xr Ia Ca)].
  Qed.
End Matching.

Lemma cn_count y l : cn y l = count_occ (list_eq_dec ascii_dec) l y.
Proof. induction l as [|a l IH]; [reflexivity|]. rewrite cn_cons, IH. cbn [count_occ]. destruct (list_eq_dec ascii_dec a y) as [-> | Na]; [now rewrite str_eqb_refl|]. destruct (str_eqb_spec a y); [congruence|reflexivity]. Qed.

(** A test for [clean]. *)
Definition freeb (s : str) : bool := forallb (fun a => negb (existsb (Ascii.eqb a) punctuation)) s.
Lemma freeb_sound s : freeb s = true -> free_of punctuation s.
Proof. unfold freeb. rewrite forallb_forall. intros H a Ia Ip. specialize (H a Ia). apply negb_true_iff in H. assert (E : existsb (Ascii.eqb a) punctuation = true) by (apply existsb_exists; exists a; split; [exact Ip|apply Ascii.eqb_refl]). congruence. Qed.
Fixpoint cleanb (rules : list rule) (k : str -> bool) (t : tree) : bool :=
  let '(Tree n ms ds) := t in
  freeb n && forallb freeb ms && k n && forallb (fun r => let x := head_of r in match x with [] => false | _ => (Nat.eqb (occ x n) 0 || str_eqb x n) && forallb (fun m => Nat.eqb (occ x m) 0) ms end) rules &&
  (match ds with [] => negb (decays rules n) || match ms with [] => true | _ => false end | _ => true end) && forallb (cleanb rules k) ds.
Lemma cleanb_sound rules k t : cleanb rules k t = true -> clean rules k t.
Proof.
  induction t as [n ms ds IH] using tree_ind'. cbn [cleanb]. rewrite !andb_true_iff. intros (((((H1 & H2) & H3) & H4) & H5) & H6). rewrite forallb_forall in H2, H4, H6.
  assert (Hd : forall x, decays rules x = true -> x <> [] /\ (occ x n = 0 \/ x = n) /\ forall m, In m ms -> occ x m = 0).
  { intros x D. apply existsb_exists in D as (r & Ir & Er). specialize (H4 r Ir). destruct (str_eqb_spec (head_of r) x) as [<- | _]; [|discriminate]. cbv zeta in H4. destruct (head_of r) as [|c s] eqn:Eh; [discriminate|]. split; [discriminate|]. apply andb_true_iff in H4 as [Ha Hb].
    split; [apply orb_true_iff in Ha as [Ha | Ha]; [left; now apply Nat.eqb_eq|right; destruct (str_eqb_spec (c :: s) n); [assumption|discriminate]]|]. intros m Im. rewrite forallb_forall in Hb. now apply Nat.eqb_eq, Hb. }
  constructor.
  - now apply freeb_sound.
  - apply Forall_forall. intros m Im. now apply freeb_sound, H2.
  - exact H3.
  - intros x D W. destruct (Hd x D) as (Nx & [E | E] & _); [|exact E]. exfalso. exact (occ_within x n E Nx W).
  - intros x m D Im. destruct (Hd x D) as (Nx & _ & E). exact (occ_within x m (E m Im) Nx).
  - intros -> D. rewrite D in H5. cbn in H5. destruct ms; [reflexivity|discriminate].
  - apply Forall_forall. intros d Id. rewrite Forall_forall in IH. exact (IH d Id (H6 d Id)).
Qed.
