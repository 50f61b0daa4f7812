From Coq Require Import Ring.
From Verif.Common Require Import Prelude.
From Verif.Tensor Require Import Model Spec.
Local Open Scope nat_scope.

(** ** Positions and coordinates *)
Fixpoint ci_ (co dim : list nat) : nat :=
  match co, dim with c :: co', _ :: dim' => c * prodn dim' + ci_ co' dim' | _, _ => 0 end.

Lemma prodn_app a b : prodn (a ++ b) = prodn a * prodn b.
Proof.
  induction a as [|x a IH]; cbn [app]; [unfold prodn at 2; cbn [fold_right]; now rewrite Nat.mul_1_l|].
  change (x * prodn (a ++ b) = x * prodn a * prodn b). rewrite IH. apply Nat.mul_assoc.
Qed.
Lemma ci_snoc co : forall dim c d, List.length co = List.length dim -> ci_ (co ++ [c]) (dim ++ [d]) = ci_ co dim * d + c.
Proof.
  induction co as [|x co IH]; intros [|e dim] c d H; try discriminate H.
  - cbn. lia.
  - cbn [app ci_]. rewrite IH by (injection H; auto). rewrite prodn_app. cbn [prodn fold_right]. lia.
Qed.
Lemma firstn_snoc {A} (l : list A) : forall i x, nth_error l i = Some x -> firstn (S i) l = firstn i l ++ [x].
Proof.
  induction l as [|y l IH]; intros [|i] x H; cbn [nth_error] in H; try discriminate H.
  - injection H as ->. reflexivity.
  - cbn [firstn app]. f_equal. now apply IH.
Qed.
Lemma c2i_go_ok : forall n co dim i dp, n <= List.length co -> n <= List.length dim ->
  c2i_go n co dim i dp = Ok (i + dp * ci_ (firstn n co) (firstn n dim)).
Proof.
  induction n as [|n IH]; intros co dim i dp H1 H2.
  - cbn. f_equal. lia.
  - cbn [c2i_go].
    destruct (nth_error co n) as [c|] eqn:E1; [|apply nth_error_None in E1; lia].
    destruct (nth_error dim n) as [d|] eqn:E2; [|apply nth_error_None in E2; lia].
    cbn [of_opt bind]. rewrite IH by lia. rewrite (firstn_snoc _ _ _ E1), (firstn_snoc _ _ _ E2).
    rewrite ci_snoc by (rewrite !firstn_length; lia). f_equal. lia.
Qed.
Lemma in_range_length co dim : in_range co dim -> List.length co = List.length dim.
Proof. induction 1; cbn [List.length]; congruence. Qed.
Lemma c2i_ok co dim : in_range co dim -> coordinates_to_index co dim = Ok (ci_ co dim).
Proof.
  intro H. apply in_range_length in H. unfold coordinates_to_index. rewrite c2i_go_ok by lia.
  rewrite (firstn_all2 co), (firstn_all2 dim) by lia. f_equal. lia.
Qed.
Lemma ci_lt co dim : in_range co dim -> ci_ co dim < prodn dim.
Proof.
  induction 1 as [|c d co dim Hc H IH]; [cbn; lia|]. cbn [ci_ prodn fold_right]. fold (prodn dim). nia.
Qed.
Lemma i2c_cons k r d rest : r < prodn rest ->
  index_to_coordinates (k * prodn rest + r) (d :: rest) = bind (index_to_coordinates r rest) (fun l => Ok (k :: l)).
Proof.
  intro H. cbn [index_to_coordinates]. destruct (prodn rest =? 0) eqn:E; [apply Nat.eqb_eq in E; lia|].
  assert (Em : (k * prodn rest + r) mod prodn rest = r).
  { rewrite Nat.add_comm, Nat.mod_add by lia. now apply Nat.mod_small. }
  rewrite Em. replace (k * prodn rest + r - r) with (k * prodn rest) by lia. rewrite Nat.div_mul by lia.
  replace (k * prodn rest + r - prodn rest * k) with r by lia. reflexivity.
Qed.
Lemma i2c_ci co dim : in_range co dim -> index_to_coordinates (ci_ co dim) dim = Ok co.
Proof.
  induction 1 as [|c d co dim Hc H IH]; [reflexivity|]. cbn [ci_]. rewrite i2c_cons by (now apply ci_lt). rewrite IH. reflexivity.
Qed.
Lemma i2c_ok dim : forall i, i < prodn dim -> exists co, in_range co dim /\ index_to_coordinates i dim = Ok co /\ ci_ co dim = i.
Proof.
  induction dim as [|d dim IH]; intros i H.
  - exists []. cbn in *. split; [constructor|]. split; [reflexivity|lia].
  - cbn [prodn fold_right] in H. fold (prodn dim) in H. assert (P : prodn dim <> 0) by nia.
    pose proof (Nat.div_mod i (prodn dim) P) as E. pose proof (Nat.mod_upper_bound i (prodn dim) P) as B.
    destruct (IH (i mod prodn dim) B) as (co & R & I & C).
    exists (i / prodn dim :: co). split; [|split].
    + constructor; [|assumption]. apply Nat.div_lt_upper_bound; lia.
    + rewrite E at 1. rewrite (Nat.mul_comm (prodn dim)). rewrite i2c_cons by assumption. rewrite I. reflexivity.
    + cbn [ci_]. rewrite C. lia.
Qed.
Theorem index_bijection dim :
  (forall co, in_range co dim -> exists i, coordinates_to_index co dim = Ok i /\ i < prodn dim /\ index_to_coordinates i dim = Ok co) /\
  (forall i, i < prodn dim -> exists co, index_to_coordinates i dim = Ok co /\ in_range co dim /\ coordinates_to_index co dim = Ok i).
Proof.
  split.
  - intros co H. exists (ci_ co dim). auto using c2i_ok, ci_lt, i2c_ci.
  - intros i H. destruct (i2c_ok dim i H) as (co & R & I & C). exists co. split; [assumption|]. split; [assumption|].
    rewrite c2i_ok by assumption. congruence.
Qed.

Lemma n_elements_pos dim : Forall (fun d => 0 < d) dim -> n_elements dim = prodn dim.
Proof.
  induction 1 as [|d dim Hd H IH]; [reflexivity|]. unfold n_elements in *. cbn [map prodn fold_right].
  fold (prodn (map (fun d => if d =? 0 then 1 else d) dim)). fold (prodn dim). rewrite IH.
  destruct (d =? 0) eqn:E; [apply Nat.eqb_eq in E; lia|reflexivity].
Qed.

Lemma set_nth_ok {A} (l : list A) i x : i < List.length l -> exists l', set_nth i x l = Ok l' /\ List.length l' = List.length l /\
  forall k, nth_error l' k = if k =? i then Some x else nth_error l k.
Proof.
  intro H. unfold set_nth. destruct (i <? List.length l) eqn:E; [|apply Nat.ltb_ge in E; lia].
  exists (firstn i l ++ x :: skipn (S i) l). split; [reflexivity|]. split.
  - rewrite app_length, firstn_length. cbn [List.length]. rewrite skipn_length. lia.
  - intro k. destruct (k =? i) eqn:Ek.
    + apply Nat.eqb_eq in Ek. subst k. rewrite nth_error_app2, firstn_length by (rewrite firstn_length; lia).
      replace (i - _) with 0 by lia. reflexivity.
    + apply Nat.eqb_neq in Ek. destruct (Nat.lt_ge_cases k i) as [L|L].
      * rewrite nth_error_app1 by (rewrite firstn_length; lia). rewrite <- (firstn_skipn i l) at 2.
        rewrite nth_error_app1 by (rewrite firstn_length; lia). reflexivity.
      * rewrite nth_error_app2, firstn_length by (rewrite firstn_length; lia).
        replace (k - Nat.min i (List.length l)) with (S (k - S i)) by lia. cbn [nth_error].
        rewrite <- (firstn_skipn (S i) l) at 2. rewrite nth_error_app2, firstn_length by (rewrite firstn_length; lia).
        f_equal. lia.
Qed.
Lemma nth_error_ext {A} (l : list A) : forall l', (forall k, nth_error l k = nth_error l' k) -> l = l'.
Proof.
  induction l as [|x l IH]; intros [|y l'] H; try reflexivity; try (specialize (H 0); discriminate H).
  pose proof (H 0) as H0. injection H0 as ->. f_equal. apply IH. intro k. exact (H (S k)).
Qed.

Lemma nth_error_nodup {A} (l : list A) i j x : NoDup l -> nth_error l i = Some x -> nth_error l j = Some x -> i = j.
Proof.
  intros N Hi Hj. apply (proj1 (NoDup_nth_error l) N); [apply nth_error_Some; congruence|congruence].
Qed.

(** ** Contractions *)
Lemma find_pos_some a l : forall i k b, find_pos a l i = Some (k, b) ->
  i <= k /\ nth_error l (k - i) = Some b /\ fst b = fst a /\ find (fun x => fst x =? fst a) l = Some b.
Proof.
  induction l as [|c l IH]; intros i k b H; cbn [find_pos] in H; [discriminate|]. unfold same in H. cbn [find].
  destruct (fst c =? fst a) eqn:E.
  - injection H as <- <-. apply Nat.eqb_eq in E. rewrite Nat.sub_diag. repeat split; auto.
  - apply IH in H as (H1 & H2 & H3 & H4). repeat split; [lia| |assumption|assumption].
    replace (k - i) with (S (k - S i)) by lia. exact H2.
Qed.
Lemma find_pos_none a l : forall i, find_pos a l i = None <-> ~ In (fst a) (ids l).
Proof.
  induction l as [|c l IH]; intros i; cbn [find_pos ids map In]; [tauto|]. unfold same.
  destruct (fst c =? fst a) eqn:E.
  - apply Nat.eqb_eq in E. split; [discriminate|]. intro H. exfalso. apply H. auto.
  - apply Nat.eqb_neq in E. rewrite IH. unfold ids. tauto.
Qed.
Lemma find_pos_find a l i : find (fun x => fst x =? fst a) l = option_map snd (find_pos a l i).
Proof.
  revert i. induction l as [|c l IH]; intro i; cbn [find_pos find]; [reflexivity|]. unfold same.
  destruct (fst c =? fst a); [reflexivity|]. apply IH.
Qed.

Lemma contr_j t1 t2 : forall i0 k x, nth_error (ids t2) k = Some x ->
  existsb (fun c => cj c =? i0 + k) (contractions t1 t2 i0) = if in_dec Nat.eq_dec x (ids t1) then true else false.
Proof.
  assert (Low : forall t2 i0 k, k < i0 -> existsb (fun c => cj c =? k) (contractions t1 t2 i0) = false).
  { induction t0 as [|b t IH]; intros i0 k H; cbn [contractions existsb]; [reflexivity|].
    destruct (find_pos b t1 0) as [[p a]|]; cbn [existsb cj]; rewrite IH by lia; [|reflexivity].
    destruct (i0 =? k) eqn:E; [apply Nat.eqb_eq in E; lia|reflexivity]. }
  induction t2 as [|b t2 IH]; intros i0 k x H; [destruct k; discriminate H|]. cbn [contractions].
  destruct k as [|k]; cbn [ids map nth_error] in H.
  - injection H as <-. rewrite Nat.add_0_r. destruct (find_pos b t1 0) as [[p a]|] eqn:E.
    + cbn [existsb cj]. rewrite Nat.eqb_refl. cbn [orb]. apply find_pos_some in E as (_ & E1 & E2 & _).
      destruct (in_dec Nat.eq_dec (fst b) (ids t1)) as [|N]; [reflexivity|]. exfalso. apply N. rewrite <- E2.
      apply nth_error_In in E1. now apply in_map.
    + rewrite Low by lia. apply find_pos_none in E. destruct (in_dec Nat.eq_dec (fst b) (ids t1)); [contradiction|reflexivity].
  - replace (i0 + S k) with (S i0 + k) by lia. destruct (find_pos b t1 0) as [[p a]|].
    + cbn [existsb cj]. destruct (i0 =? S i0 + k) eqn:E; [apply Nat.eqb_eq in E; lia|]. cbn [orb]. now apply IH.
    + now apply IH.
Qed.
Lemma contr_i t1 t2 : NoDup (ids t1) -> forall i0 k x, nth_error (ids t1) k = Some x ->
  existsb (fun c => ci c =? k) (contractions t1 t2 i0) = if in_dec Nat.eq_dec x (ids t2) then true else false.
Proof.
  intros N. induction t2 as [|b t2 IH]; intros i0 k x H; cbn [contractions]; [reflexivity|].
  assert (Hd : (if in_dec Nat.eq_dec x (ids (b :: t2)) then true else false) =
    (fst b =? x) || (if in_dec Nat.eq_dec x (ids t2) then true else false)).
  { cbn [ids map]. destruct (in_dec Nat.eq_dec x (fst b :: map fst t2)) as [I|I], (in_dec Nat.eq_dec x (ids t2)) as [J|J]; cbn [In] in I.
    - now rewrite orb_true_r.
    - destruct I as [I|I]; [|contradiction]. subst x. now rewrite Nat.eqb_refl.
    - exfalso. apply I. now right.
    - destruct (fst b =? x) eqn:E; [|reflexivity]. apply Nat.eqb_eq in E. exfalso. apply I. now left. }
  rewrite Hd. destruct (find_pos b t1 0) as [[p a]|] eqn:E.
  - cbn [existsb ci]. rewrite (IH _ _ _ H). f_equal. apply find_pos_some in E as (_ & E1 & E2 & _).
    rewrite Nat.sub_0_r in E1. assert (E3 : nth_error (ids t1) p = Some (fst b)) by (rewrite <- E2; exact (map_nth_error fst p t1 E1)).
    destruct (p =? k) eqn:Ek, (fst b =? x) eqn:Ex; try reflexivity.
    + apply Nat.eqb_eq in Ek. subst p. apply Nat.eqb_neq in Ex. congruence.
    + apply Nat.eqb_eq in Ex. subst x. apply Nat.eqb_neq in Ek. exfalso. apply Ek. exact (nth_error_nodup _ _ _ _ N E3 H).
  - rewrite (IH _ _ _ H). apply find_pos_none in E. destruct (fst b =? x) eqn:Ex; [|reflexivity].
    apply Nat.eqb_eq in Ex. subst x. exfalso. apply E. now apply nth_error_In in H.
Qed.

Lemma skipn_next {A} (l : list A) : forall j, skipn (S j) l = skipn 1 (skipn j l).
Proof.
  induction l as [|x l IH]; intros [|j]; try reflexivity.
  change (skipn (S (S j)) (x :: l)) with (skipn (S j) l). change (skipn (S j) (x :: l)) with (skipn j l). apply IH.
Qed.
Lemma fill_ok contracted (c : nat -> bool) rho coords : forall xs i j rest,
  (forall k x, nth_error xs k = Some x -> contracted (i + k) = c x) ->
  skipn j coords = map rho (filter (fun x => negb (c x)) xs) ++ rest ->
  fill contracted coords i j (List.length xs) = Ok (map (fun x => if c x then 0 else rho x) xs).
Proof.
  induction xs as [|x xs IH]; intros i j rest Hc Hs; cbn [fill List.length map]; [reflexivity|].
  rewrite <- (Nat.add_0_r i) at 1. rewrite (Hc 0 x eq_refl). cbn [filter] in Hs.
  assert (Hc' : forall k y, nth_error xs k = Some y -> contracted (S i + k) = c y).
  { intros k y Hy. replace (S i + k) with (i + S k) by lia. now apply Hc. }
  destruct (c x) eqn:E; cbn [negb] in Hs.
  - rewrite (IH (S i) j rest Hc' Hs). reflexivity.
  - cbn [map app] in Hs.
    assert (Hn : nth_error coords j = Some (rho x)).
    { rewrite <- (firstn_skipn j coords). assert (L : j < List.length coords).
      { destruct (Nat.lt_ge_cases j (List.length coords)); [assumption|]. rewrite skipn_all2 in Hs by assumption. discriminate. }
      rewrite nth_error_app2, firstn_length by (rewrite firstn_length; lia).
      replace (j - _) with 0 by lia. now rewrite Hs. }
    rewrite Hn. cbn [of_opt bind]. rewrite (IH (S i) (S j) rest Hc'); [reflexivity|].
    rewrite skipn_next. now rewrite Hs.
Qed.
