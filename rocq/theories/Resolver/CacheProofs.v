From Verif.Common Require Import Prelude.
From Verif.Resolver Require Import Model Spec.

Lemma find_in n v l : find_entry n l = Some v -> In (n, v) l.
Proof.
  induction l as [|[m w] l IH]; cbn [find_entry]; [discriminate|]. destruct (str_eqb_spec n m) as [-> | N]; intro H.
  - left. congruence.
  - right. auto.
Qed.
Lemma find_app n l l' : find_entry n (l ++ l') = match find_entry n l with Some v => Some v | None => find_entry n l' end.
Proof.
  induction l as [|[m w] l IH]; cbn [find_entry app]; [reflexivity|]. destruct (str_eqb n m); [reflexivity|exact IH].
Qed.
Lemma find_none n l : find_entry n l = None -> forall v, ~ In (n, v) l.
Proof.
  induction l as [|[m w] l IH]; cbn [find_entry]; intros H v; [intros []|]. destruct (str_eqb_spec n m); [discriminate|].
  intros [X|X]; [congruence|]. now apply (IH H v).
Qed.

(** Every range lies below the total, and ranges of different entries are disjoint. *)
Definition sound (c : cache) : Prop :=
  (forall n a s, find_entry n (entries c) = Some (a, s) -> a + s <= n_params c) /\
  (forall n a s n' a' s', find_entry n (entries c) = Some (a, s) -> find_entry n' (entries c) = Some (a', s') -> n <> n' ->
     disjoint_ranges a s a' s').

Lemma sound_empty : sound empty_cache.
Proof. split; intros; discriminate. Qed.
Lemma add_cache_spec n s c : sound c -> forall a c', add_cache n s c = (a, c') ->
  sound c' /\ n_params c <= n_params c' /\
  (forall m v, find_entry m (entries c) = Some v -> find_entry m (entries c') = Some v) /\
  (exists s', find_entry n (entries c') = Some (a, s') /\ (find_entry n (entries c) = None -> s' = s /\ a = n_params c)) /\
  (forall m v, find_entry m (entries c') = Some v -> find_entry m (entries c) = Some v \/ (m = n /\ v = (a, s))).
Proof.
  intros [B D] a c' E. unfold add_cache in E. destruct (find_entry n (entries c)) as [[a0 s0]|] eqn:F.
  - injection E as <- <-. split; [now split|]. split; [lia|]. split; [auto|]. split; [|auto].
    exists s0. split; [assumption|discriminate].
  - injection E as Ea <-. assert (Ea' : a = n_params c) by lia. clear Ea. subst a. cbn [entries n_params].
    assert (New : forall m, find_entry m (entries c ++ [(n, (n_params c, s))]) =
      match find_entry m (entries c) with Some v => Some v | None => if str_eqb m n then Some (n_params c, s) else None end)
      by (intro m; apply find_app).
    assert (Old : forall m v, find_entry m (entries c ++ [(n, (n_params c, s))]) = Some v ->
      find_entry m (entries c) = Some v \/ (m = n /\ v = (n_params c, s))).
    { intros m v. rewrite New. destruct (find_entry m (entries c)); [auto|]. destruct (str_eqb_spec m n); [|discriminate].
      intro H. right. split; [assumption|congruence]. }
    replace (n_params c + s - s) with (n_params c) by lia.
    split; [split|split; [|split; [|split]]].
    + intros m a s' H. cbn [entries n_params] in *. destruct (Old _ _ H) as [H'|[-> H']]; [apply B in H'; lia|].
      injection H' as -> ->. lia.
    + intros m a s1 m' a' s1' H H' N x. cbn [entries] in *.
      destruct (Old _ _ H) as [G|[-> G]], (Old _ _ H') as [G'|[-> G']].
      * now apply (D _ _ _ _ _ _ G G' N).
      * injection G' as -> ->. apply B in G. lia.
      * injection G as -> ->. apply B in G'. lia.
      * congruence.
    + lia.
    + intros m v H. rewrite New. now rewrite H.
    + exists s. rewrite New, F, str_eqb_refl. auto.
    + exact Old.
Qed.

Lemma register_spec : forall l c given c', sound c -> register l c = (given, c') ->
  sound c' /\ n_params c <= n_params c' /\
  (forall m v, find_entry m (entries c) = Some v -> find_entry m (entries c') = Some v) /\
  (forall n a s, In (n, a, s) given -> exists s', find_entry n (entries c') = Some (a, s')).
Proof.
  induction l as [|r l IH]; intros c given c' Hs E; cbn [register] in E.
  - injection E as <- <-. split; [assumption|]. split; [lia|]. split; [auto|]. intros n a s [].
  - destruct (add_cache (request_name r c) (request_size r) c) as [a c1] eqn:E1.
    destruct (register l c1) as [g c2] eqn:E2. injection E as <- <-.
    destruct (add_cache_spec _ _ _ Hs _ _ E1) as (S1 & L1 & K1 & (s' & F1 & _) & _).
    destruct (IH _ _ _ S1 E2) as (S2 & L2 & K2 & G2).
    split; [assumption|]. split; [lia|]. split; [auto|]. intros n b s [H|H]; [|eauto].
    injection H as <- <- <-. exists s'. auto.
Qed.

(** Sizes: what is stored for a name is what was asked for, if everyone asks for the same. *)
Lemma register_sizes size : forall l c given c', sound c ->
  (forall n v, find_entry n (entries c) = Some v -> snd v = size n) ->
  register l c = (given, c') -> (forall n a s, In (n, a, s) given -> s = size n) ->
  forall n v, find_entry n (entries c') = Some v -> snd v = size n.
Proof.
  induction l as [|r l IH]; intros c given c' Hs Hc E Hg; cbn [register] in E.
  - injection E as <- <-. exact Hc.
  - destruct (add_cache (request_name r c) (request_size r) c) as [a c1] eqn:E1.
    destruct (register l c1) as [g c2] eqn:E2. injection E as <- <-.
    destruct (add_cache_spec _ _ _ Hs _ _ E1) as (S1 & _ & _ & _ & O1).
    apply (IH c1 g c2 S1); [|exact E2|].
    + intros n v H. destruct (O1 n v H) as [H'|[-> ->]]; [auto|]. cbn [snd]. apply (Hg _ a). now left.
    + intros n b s H. apply (Hg n b s). now right.
Qed.

(** ** Names of function objects *)
Definition dvalue (l : str) : nat := fold_left (fun a c => 10 * a + (nat_of_ascii c - 48)) l 0.
Lemma dvalue_snoc l c : dvalue (l ++ [c]) = 10 * dvalue l + (nat_of_ascii c - 48).
Proof. unfold dvalue. now rewrite fold_left_app. Qed.
Lemma digits_value : forall f n, n < f -> dvalue (digits f n) = n.
Proof.
  induction f as [|f IH]; intros n H; [lia|]. cbn [digits]. rewrite dvalue_snoc.
  assert (M : n mod 10 < 10) by (apply Nat.mod_upper_bound; lia).
  rewrite nat_ascii_embedding by lia. replace (48 + n mod 10 - 48) with (n mod 10) by lia.
  destruct (n <? 10) eqn:E.
  - apply Nat.ltb_lt in E. rewrite Nat.mod_small by assumption. reflexivity.
  - apply Nat.ltb_ge in E. rewrite IH; [|pose proof (Nat.div_lt n 10); lia]. rewrite (Nat.div_mod n 10) at 3 by lia. reflexivity.
Qed.
Lemma to_text_inj n m : to_text n = to_text m -> n = m.
Proof.
  intro H. rewrite <- (digits_value (S n) n), <- (digits_value (S m) m) by lia. unfold to_text in H. now rewrite H.
Qed.

(** Function objects so far have their address in their name. *)
Definition lambdas_ok (c : cache) := forall t v, find_entry (S_ "lxpr_" ++ t) (entries c) = Some v -> t = to_text (fst v) /\ fst v < n_params c.
Lemma lambda_fresh c : lambdas_ok c -> find_entry (S_ "lxpr_" ++ to_text (n_params c)) (entries c) = None.
Proof.
  intro H. destruct (find_entry _ _) as [[a s]|] eqn:E; [|reflexivity]. apply H in E as [E1 E2]. cbn [fst] in *.
  apply to_text_inj in E1. lia.
Qed.
Lemma register_lambdas : forall l c given c', sound c -> lambdas_ok c ->
  Forall (fun r => match r with Named n _ => plain n | Lambda => True end) l -> register l c = (given, c') ->
  forall i j, i < j -> nth_error l i = Some Lambda -> nth_error l j = Some Lambda ->
  exists a b, nth_error (map (fun g => snd (fst g)) given) i = Some a /\ nth_error (map (fun g => snd (fst g)) given) j = Some b /\ a < b.
Proof.
  assert (Step : forall r c a c1, sound c -> lambdas_ok c -> match r with Named n _ => plain n | Lambda => True end ->
    add_cache (request_name r c) (request_size r) c = (a, c1) -> lambdas_ok c1 /\ (r = Lambda -> a = n_params c /\ n_params c1 = S (n_params c))).
  { intros r c a c1 Hs Hl Hr E. destruct (add_cache_spec _ _ _ Hs _ _ E) as (S1 & L1 & K1 & (s' & F1 & N1) & O1).
    destruct r as [n s|]; cbn [request_name request_size] in *.
    - split; [|discriminate]. intros t v H. destruct (O1 _ _ H) as [H'|[H' _]]; [apply Hl in H' as [X Y]; split; [assumption|lia]|].
      exfalso. now apply (Hr t).
    - pose proof (lambda_fresh c Hl) as Fr. destruct (N1 Fr) as [-> ->].
      assert (Ln : n_params c1 = S (n_params c)) by (unfold add_cache in E; rewrite Fr in E; injection E as _ <-; cbn [n_params]; lia).
      split; [|auto]. intros t v H. destruct (O1 _ _ H) as [H'|[H' ->]]; [apply Hl in H' as [X Y]; split; [assumption|lia]|].
      apply app_inv_head in H'. subst t. cbn [fst]. split; [reflexivity|lia]. }
  assert (Later : forall l c given c', sound c -> lambdas_ok c ->
    Forall (fun r => match r with Named n _ => plain n | Lambda => True end) l -> register l c = (given, c') ->
    forall j, nth_error l j = Some Lambda -> exists b, nth_error (map (fun g => snd (fst g)) given) j = Some b /\ n_params c <= b).
  { induction l as [|r l IH]; intros c given c' Hs Hl Hp E j Hj; [destruct j; discriminate|]. cbn [register] in E.
    destruct (add_cache (request_name r c) (request_size r) c) as [a c1] eqn:E1.
    destruct (register l c1) as [g c2] eqn:E2. injection E as <- <-.
    destruct (Step _ _ _ _ Hs Hl (Forall_inv Hp) E1) as [L1 Hlam].
    destruct (add_cache_spec _ _ _ Hs _ _ E1) as (S1 & Le & _).
    destruct j as [|j]; cbn [nth_error map] in *.
    - injection Hj as ->. destruct (Hlam eq_refl) as [-> _]. exists (n_params c). split; [reflexivity|lia].
    - destruct (IH _ _ _ S1 L1 (Forall_inv_tail Hp) E2 j Hj) as (b & X & Y). exists b. split; [assumption|lia]. }
  induction l as [|r l IH]; intros c given c' Hs Hl Hp E i j Hij Hi Hj; [destruct i; discriminate|].
  cbn [register] in E.
  destruct (add_cache (request_name r c) (request_size r) c) as [a c1] eqn:E1.
  destruct (register l c1) as [g c2] eqn:E2. injection E as <- <-.
  destruct (Step _ _ _ _ Hs Hl (Forall_inv Hp) E1) as [L1 Hlam].
  destruct (add_cache_spec _ _ _ Hs _ _ E1) as (S1 & Le & _).
  destruct j as [|j]; [lia|]. destruct i as [|i]; cbn [nth_error map] in *.
  - injection Hi as ->. destruct (Hlam eq_refl) as [-> Ln].
    destruct (Later _ _ _ _ S1 L1 (Forall_inv_tail Hp) E2 j Hj) as (b & X & Y). exists (n_params c), b.
    split; [reflexivity|]. split; [assumption|lia].
  - apply (IH _ _ _ S1 L1 (Forall_inv_tail Hp) E2 i j); [lia|assumption|assumption].
Qed.
