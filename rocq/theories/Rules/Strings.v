(** Occurrences of a name in the text of a tree. *)
From Verif.Utilities Require Import Model Proofs.
From Verif.Descriptor Require Import Spec Proofs.
From Verif.Descriptor Require Model.
From Verif.Rules Require Import Model Spec.
From Coq Require Import Permutation.

Fixpoint occ (x s : str) : nat := match s with [] => 0 | _ :: r => (if prefixb x s then 1 else 0) + occ x r end.

Lemma prefixb_app x s t : prefixb x s = true -> prefixb x (s ++ t) = true.
Proof. revert s. induction x as [|a x IH]; intros [|b s] H; try reflexivity; try discriminate. cbn in *. apply andb_true_iff in H as [E H]. now rewrite E, (IH s H). Qed.
Lemma prefixb_cut x s p t : ~ In p x -> prefixb x (s ++ p :: t) = prefixb x s.
Proof.
  revert s. induction x as [|a x IH]; intros [|b s] N; try reflexivity; cbn.
  - destruct (Ascii.eqb_spec a p) as [-> | _]; [exfalso; apply N; now left|reflexivity].
  - rewrite IH; [reflexivity|]. intro I. apply N. now right.
Qed.
Lemma occ_cut x s p t : x <> [] -> ~ In p x -> occ x (s ++ p :: t) = occ x s + occ x t.
Proof.
  intros Nx N. induction s as [|a s IH].
  - cbn [app occ]. destruct x as [|b x]; [congruence|]. cbn [prefixb]. destruct (Ascii.eqb_spec b p) as [-> | _]; [exfalso; apply N; now left|reflexivity].
  - cbn [app occ]. rewrite IH. change (a :: s ++ p :: t) with ((a :: s) ++ p :: t). rewrite prefixb_cut by exact N. lia.
Qed.
Lemma occ_end x s p : x <> [] -> ~ In p x -> occ x (s ++ [p]) = occ x s.
Proof. intros Nx N. rewrite occ_cut by assumption. cbn. lia. Qed.
Lemma prefixb_split x s : prefixb x s = true <-> exists b, s = x ++ b.
Proof.
  revert s. induction x as [|a x IH]; intros s; cbn; [split; [eauto|reflexivity]|]. destruct s as [|c s]; [split; [discriminate|intros [b E]; discriminate]|].
  rewrite andb_true_iff, IH. split; [intros [E [b ->]]; apply Ascii.eqb_eq in E; subst; now exists b|intros [b E]; injection E as <- ->; split; [apply Ascii.eqb_refl|now exists b]].
Qed.
Lemma occ_within x s : occ x s = 0 -> x <> [] -> ~ within x s.
Proof.
  intros H Nx (a & b & ->). revert H. induction a as [|c a IH]; cbn [app]; [|cbn [occ]; intro H; apply IH; lia].
  destruct x as [|d x]; [congruence|]. cbn [app occ]. assert (P : prefixb (d :: x) ((d :: x) ++ b) = true) by (apply prefixb_split; eauto). cbn [app] in P. rewrite P. lia.
Qed.
Lemma within_occ x s : ~ within x s -> occ x s = 0.
Proof.
  induction s as [|a s IH]; intro H; [reflexivity|]. cbn [occ]. rewrite IH; [|intros (p & q & ->); apply H; exists (a :: p), q; reflexivity].
  destruct (prefixb x (a :: s)) eqn:E; [|reflexivity]. exfalso. apply H. apply prefixb_split in E as [b ->]. now exists [], b.
Qed.
Lemma occ_short x s : List.length s < List.length x -> occ x s = 0.
Proof. intro H. apply within_occ. intros (a & b & ->). rewrite !app_length in H. lia. Qed.
Lemma occ_self x : x <> [] -> occ x x = 1.
Proof.
  destruct x as [|a x]; [congruence|]. intros _. cbn [occ]. rewrite (occ_short _ x) by (cbn; lia).
  assert (P : prefixb (a :: x) (a :: x) = true) by (apply prefixb_split; exists []; now rewrite app_nil_r). now rewrite P.
Qed.

(** The tokens of a tree: names and modifiers. *)
Fixpoint tokens (t : tree) : list str := let '(Tree n ms ds) := t in n :: ms ++ flat_map tokens ds.
Definition total_occ (x : str) (l : list str) : nat := list_sum (map (occ x) l).
Lemma total_occ_app x l k : total_occ x (l ++ k) = total_occ x l + total_occ x k.
Proof. unfold total_occ. now rewrite map_app, list_sum_app. Qed.
Lemma occ_joined x p l : x <> [] -> ~ In p x -> occ x (joined p l) = total_occ x l.
Proof.
  intros Nx N. induction l as [|a [|b l] IH]; [reflexivity|unfold total_occ; cbn; lia|]. change (joined p (a :: b :: l)) with (a ++ p :: joined p (b :: l)). rewrite occ_cut, IH by assumption. reflexivity.
Qed.
Lemma occ_text x t : x <> [] -> free_of punctuation x -> occ x (text t) = total_occ x (tokens t).
Proof.
  intros Nx Fx. assert (N : forall p, In p punctuation -> ~ In p x) by (intros p Ip I; exact (Fx p I Ip)).
  assert (H : forall n ms, occ x (head_text n ms) = total_occ x (n :: ms)).
  { intros n [|m ms]; [unfold total_occ; cbn; lia|]. cbn [head_text]. rewrite occ_cut by (try assumption; apply N; cbn; tauto). rewrite occ_end by (try assumption; apply N; cbn; tauto). rewrite occ_joined by (try assumption; apply N; cbn; tauto). reflexivity. }
  induction t as [n ms ds IH] using tree_ind'. cbn [text tokens]. change (n :: ms ++ flat_map tokens ds) with ((n :: ms) ++ flat_map tokens ds). rewrite total_occ_app.
  destruct ds as [|d r]; [rewrite H; unfold total_occ at 3; cbn; lia|]. rewrite occ_cut by (try assumption; apply N; cbn; tauto). rewrite occ_end by (try assumption; apply N; cbn; tauto).
  rewrite occ_joined by (try assumption; apply N; cbn; tauto). rewrite H. f_equal.
  clear - IH. induction IH as [|e l He _ IHl]; [reflexivity|]. cbn [map flat_map]. rewrite total_occ_app, <- IHl, <- He. reflexivity.
Qed.

(** The only occurrence is found and replaced; the text that comes in its place has no further one. *)
Lemma occ_app_ge x s t : occ x (s ++ t) >= occ x s + occ x t.
Proof.
  induction s as [|a s IH]; [cbn; lia|]. cbn [app occ]. destruct (prefixb x (a :: s)) eqn:E; [change (a :: s ++ t) with ((a :: s) ++ t); rewrite (prefixb_app _ _ t E); lia|lia].
Qed.
Lemma find0_none x s : occ x s = 0 -> x <> [] -> find0 x s = None.
Proof.
  intros H Nx. induction s as [|a s IH]; [destruct x; [congruence|reflexivity]|]. cbn [occ] in H. cbn [find0]. destruct (prefixb x (a :: s)); [lia|]. rewrite IH by lia. reflexivity.
Qed.
Lemma find0_only x pre post : x <> [] -> occ x (pre ++ x ++ post) = 1 -> find0 x (pre ++ x ++ post) = Some (List.length pre).
Proof.
  intros Nx. induction pre as [|a pre IH]; intro H.
  - cbn [app List.length]. destruct x as [|b x]; [congruence|]. cbn [app find0]. assert (P : prefixb (b :: x) ((b :: x) ++ post) = true) by (apply prefixb_split; eauto). cbn [app] in P. now rewrite P.
  - cbn [app occ] in H. pose proof (occ_app_ge x pre (x ++ post)) as G. pose proof (occ_app_ge x x post) as G2. rewrite (occ_self x Nx) in G2. cbn [app find0 List.length]. destruct (prefixb x (a :: pre ++ x ++ post)); [lia|]. rewrite IH by lia. reflexivity.
Qed.
Lemma replace_once x tail pre post fuel : x <> [] -> tail <> [] -> occ x (pre ++ x ++ post) = 1 -> occ x (pre ++ (x ++ tail) ++ post) = 1 -> 2 <= fuel ->
  replaceAll fuel (pre ++ x ++ post) x (x ++ tail) = Ok (pre ++ (x ++ tail) ++ post).
Proof.
  intros Nx Nt H1 H2 F. unfold replaceAll. destruct (str_eqb_spec x (x ++ tail)) as [E | _]; [exfalso; apply Nt; apply (f_equal (@List.length _)) in E; rewrite app_length in E; destruct tail; [reflexivity|cbn in E; lia]|].
  destruct fuel as [|[|fuel]]; [lia|lia|]. cbn [replace_loop]. pose proof (find_from_split x [] (pre ++ x ++ post)) as Q. cbn [app List.length] in Q. rewrite Q, (find0_only x pre post Nx H1). cbn [option_map].
  assert (A : firstn (List.length pre) (pre ++ x ++ post) = pre) by (rewrite firstn_app, Nat.sub_diag, firstn_all; cbn; now rewrite app_nil_r).
  assert (B : skipn (List.length pre + List.length x) (pre ++ x ++ post) = post).
  { rewrite app_assoc. replace (List.length pre + List.length x) with (List.length (pre ++ x)) by (rewrite app_length; reflexivity). rewrite skipn_app, Nat.sub_diag, skipn_all. reflexivity. }
  cbn [Nat.add]. rewrite A, B. replace (pre ++ (x ++ tail) ++ post) with ((pre ++ x) ++ tail ++ post) in * by (rewrite <- !app_assoc; reflexivity).
  replace (List.length pre + List.length x) with (List.length (pre ++ x)) by (rewrite app_length; reflexivity). rewrite find_from_split, find0_none; [reflexivity| |exact Nx].
  pose proof (occ_app_ge x (pre ++ x) (tail ++ post)). pose proof (occ_app_ge x pre x). rewrite occ_self in * by exact Nx. lia.
Qed.

(** Putting a tree in the place of the particle [x] that is yet to decay. *)
Fixpoint sub (x : str) (u t : tree) : tree := let '(Tree n ms ds) := t in match ds with [] => if str_eqb n x then u else t | _ => Tree n ms (map (sub x u) ds) end.
Fixpoint ends (x : str) (t : tree) : nat := let '(Tree n ms ds) := t in match ds with [] => if str_eqb n x then 1 else 0 | _ => list_sum (map (ends x) ds) end.
Lemma sub_none x u t : ends x t = 0 -> sub x u t = t.
Proof.
  induction t as [n ms ds IH] using tree_ind'. cbn [ends sub]. destruct ds as [|d r]; [destruct (str_eqb n x); [discriminate|reflexivity]|]. intro H. f_equal.
  revert IH H. generalize (d :: r). intros l IH H. induction IH as [|e l He _ IHl]; [reflexivity|]. cbn [map list_sum fold_right] in *. rewrite He by lia. f_equal. apply IHl. unfold list_sum. lia.
Qed.
Lemma sub_none_list x u l : list_sum (map (ends x) l) = 0 -> map (sub x u) l = l.
Proof. induction l as [|d l IH]; [reflexivity|]. cbn [map list_sum fold_right]. intro H. rewrite sub_none by lia. f_equal. apply IH. unfold list_sum. lia. Qed.
(** the particle yet to decay has no modifiers *)
Inductive bare (x : str) : tree -> Prop := br n ms ds : (ds = [] -> n = x -> ms = []) -> Forall (bare x) ds -> bare x (Tree n ms ds).
Lemma text_sub x t : bare x t -> ends x t = 1 -> exists pre post, text t = pre ++ x ++ post /\ forall u, text (sub x u t) = pre ++ text u ++ post.
Proof.
  induction t as [n ms ds IH] using tree_ind'. intros Hb He. inversion Hb as [? ? ? B0 Bd]; subst. cbn [ends] in He. destruct ds as [|d r].
  - destruct (str_eqb_spec n x) as [-> | N]; [|discriminate]. rewrite (B0 eq_refl eq_refl). exists [], []. cbn [text head_text sub]. rewrite str_eqb_refl. split; [now rewrite app_nil_r|intro u; now rewrite app_nil_r].
  - assert (J : exists pre post, joined "," (map text (d :: r)) = pre ++ x ++ post /\ forall u, joined "," (map text (map (sub x u) (d :: r))) = pre ++ text u ++ post).
    { clear Hb B0 n ms. revert IH Bd He. generalize (d :: r). intros l IH Bd He. induction l as [|e l IHl]; [discriminate|]. cbn [map list_sum fold_right] in He.
      pose proof (Forall_inv IH) as IHe. pose proof (Forall_inv_tail IH) as IHt. destruct (ends x e) as [|k] eqn:Ee.
      - destruct (IHl IHt (Forall_inv_tail Bd) He) as (pre & post & P & Q). destruct l as [|f l]; [discriminate|].
        exists (text e ++ ","%char :: pre), post. split.
        + change (joined "," (map text (e :: f :: l))) with (text e ++ ","%char :: joined "," (map text (f :: l))). rewrite P. rewrite <- app_assoc. reflexivity.
        + intro u. change (joined "," (map text (map (sub x u) (e :: f :: l)))) with (text (sub x u e) ++ ","%char :: joined "," (map text (map (sub x u) (f :: l)))). rewrite (sub_none x u e Ee), Q, <- app_assoc. reflexivity.
      - assert (E1 : k = 0) by lia. subst k. assert (E2 : list_sum (map (ends x) l) = 0) by (unfold list_sum; lia). destruct (IHe (Forall_inv Bd) Ee) as (pre & post & P & Q).
        destruct l as [|f l]; [exists pre, post; split; [exact P|exact Q]|]. exists pre, (post ++ ","%char :: joined "," (map text (f :: l))). split.
        + change (joined "," (map text (e :: f :: l))) with (text e ++ ","%char :: joined "," (map text (f :: l))). rewrite P, <- !app_assoc. reflexivity.
        + intro u. change (joined "," (map text (map (sub x u) (e :: f :: l)))) with (text (sub x u e) ++ ","%char :: joined "," (map text (map (sub x u) (f :: l)))). rewrite Q, (sub_none_list x u _ E2), <- !app_assoc. reflexivity. }
    destruct J as (pre & post & P & Q). exists (head_text n ms ++ "{"%char :: pre), (post ++ ["}"%char]). split.
    + cbn [text]. rewrite P. repeat (rewrite <- ?app_assoc; cbn [app]). reflexivity.
    + intro u. cbn [sub map]. specialize (Q u). cbn [map] in Q. cbn [text]. rewrite map_cons, Q. repeat (rewrite <- ?app_assoc; cbn [app]). reflexivity.
Qed.
