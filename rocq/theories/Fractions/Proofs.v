From Verif.Common Require Import Prelude.
From Coq Require Import Reals Lra Lia Sorted Permutation.
From Verif.Utilities Require Import Model Proofs.
From Verif.Coherent Require Import Model Spec Real.
From Verif.Fractions Require Import Model Spec.
Local Open Scope nat_scope.
Lemma has_text_within s l : has_text s l = true <-> within l s.
Proof.
  unfold has_text, within. destruct (find0 l s) as [n|] eqn:F; split; intro H; try discriminate; try reflexivity.
  - destruct (find0_Some _ _ _ F) as (_ & [q Hq] & _). exists (firstn n s), q. rewrite <- Hq. symmetry. apply firstn_skipn.
  - destruct H as (a & b & E). exfalso. apply (find0_None _ _ F (List.length a) b). rewrite E, skipn_app, skipn_all, Nat.sub_diag. reflexivity.
Qed.
Lemma contains_uses m l : contains m l = true <-> uses m l.
Proof. unfold contains, uses. rewrite existsb_exists. split; intros (c & A & B); exists c; (split; [exact A | apply has_text_within; exact B]). Qed.
Lemma select_spec f l : forall k, StronglySorted lt (select f l k) /\ (forall i, In i (select f l k) <-> exists m, k <= i /\ nth_error l (i - k) = Some m /\ f m = true).
Proof.
  induction l as [| m l IH]; intro k; cbn [select].
  - split; [constructor|]. intro i. split; [intros [] | intros (m & _ & H & _)]. destruct (i - k); discriminate.
  - destruct (IH (S k)) as [A B].
    assert (E : forall i, In i (select f l (S k)) <-> exists x, k < i /\ nth_error (m :: l) (i - k) = Some x /\ f x = true).
    { intro i. rewrite B. split; intros (x & H1 & H2 & H3); exists x; (split; [lia|]); (split; [| exact H3]); [replace (i - k) with (S (i - S k)) by lia | replace (i - k) with (S (i - S k)) in H2 by lia]; exact H2. }
    destruct (f m) eqn:F; split.
    + constructor; [exact A|]. apply Forall_forall. intros i Hi. apply B in Hi as (x & H & _). lia.
    + intro i. cbn [In]. rewrite E. split.
      * intros [<-|(x & H1 & H2)]; [exists m; rewrite Nat.sub_diag; auto | exists x; split; [lia | exact H2]].
      * intros (x & H1 & H2 & H3). destruct (Nat.eq_dec k i) as [|Hne]; [left; assumption | right; exists x; split; [lia | auto]].
    + exact A.
    + intro i. rewrite E. split; intros (x & H1 & H2 & H3); exists x; [split; [lia | auto]|].
      destruct (Nat.eq_dec k i) as [->|]; [rewrite Nat.sub_diag in H2; injection H2 as <-; congruence | split; [lia | auto]].
Qed.
Lemma select_numbers f P l : (forall m, f m = true <-> P m) -> numbers P l (select f l 0).
Proof.
  intro H. destruct (select_spec f l 0) as [A B]. split; [exact A|]. intro i. rewrite B. split; intros (m & X).
  - exists m. rewrite Nat.sub_0_r, H in X. tauto.
  - exists m. rewrite Nat.sub_0_r, H. repeat split; try tauto. lia.
Qed.
Lemma numbers_lt P mes l : numbers P mes l -> Forall (fun i => i < List.length mes) l.
Proof. intros [_ H]. apply Forall_forall. intros i Hi. apply H in Hi as (m & E & _). apply nth_error_Some. congruence. Qed.
Lemma sorted_nodup (c : list nat) : StronglySorted lt c -> NoDup c.
Proof. induction 1 as [| a l S IH F]; constructor; [| exact IH]. intro H. rewrite Forall_forall in F. apply F in H. lia. Qed.

(** ** Sorting *)
Lemma insert_perm f l : Permutation (f :: l) (insert f l).
Proof. induction l as [| h l IH]; cbn [insert]; [apply Permutation_refl|]. destruct (fless h f); [| apply Permutation_refl]. eapply Permutation_trans; [apply perm_swap|]. apply perm_skip. exact IH. Qed.
Lemma sort_perm l : Permutation l (sort l).
Proof. induction l as [| h l IH]; cbn; [constructor|]. eapply Permutation_trans; [apply perm_skip; exact IH | apply insert_perm]. Qed.
Definition increasing := StronglySorted (fun a b : fraction => (Rabs (value a) <= Rabs (value b))%R).
Lemma insert_inc f l : increasing l -> increasing (insert f l).
Proof.
  induction 1 as [| h l S IH F]; cbn [insert]; [repeat constructor|]. unfold fless. destruct (Rlt_dec (Rabs (value h)) (Rabs (value f))) as [H|H].
  - constructor; [exact IH|]. apply Forall_forall. intros x Hx. apply (Permutation_in x (Permutation_sym (insert_perm f l))) in Hx. destruct Hx as [<-|Hx]; [lra|]. rewrite Forall_forall in F. apply F. exact Hx.
  - constructor; [constructor; assumption|]. constructor; [lra|]. apply Forall_forall. intros x Hx. rewrite Forall_forall in F. apply F in Hx. lra.
Qed.
Lemma sort_inc l : increasing (sort l).
Proof. induction l as [| h l IH]; cbn; [constructor | apply insert_inc; exact IH]. Qed.
Lemma sorted_snoc {A} (R : A -> A -> Prop) l x : StronglySorted R l -> (forall y, In y l -> R y x) -> StronglySorted R (l ++ [x]).
Proof.
  induction 1 as [| h l S IH F]; intro H; cbn; [repeat constructor|]. constructor; [apply IH; intros y Hy; apply H; right; exact Hy|].
  apply Forall_app. split; [exact F | constructor; [apply H; left; reflexivity | constructor]].
Qed.
Lemma rev_dec l : increasing l -> decreasing (rev l).
Proof.
  unfold decreasing. induction 1 as [| h l S IH F]; cbn; [constructor|]. apply sorted_snoc; [exact IH|]. intros y Hy. apply in_rev in Hy. rewrite Forall_forall in F. apply F. exact Hy.
Qed.

(** ** Calculators *)
Section Calc.
  Context (nm g : list (cplx R)) (Hn : List.length nm = List.length g * List.length g) (errors : list nat -> list fcalc -> list R).
  Definition inside (c : fcalc) : Prop := Forall (fun i => i < List.length g) (fi c) /\ Forall (fun i => i < List.length g) (fj c).
  Definition frac ns c := (S2 nm g (fi c) (fj c) / S2 nm g ns ns)%R.
  Lemma values_ok ns cs : Forall (fun i => i < List.length g) ns -> Forall inside cs -> values nm g ns cs = Ok (map (frac ns) cs).
  Proof. intros Hs. induction 1 as [| c cs [A B] F IH]; cbn [values map]; [reflexivity|]. rewrite (ff_val_ok nm g Hn ns _ _ Hs A B). cbn [bind]. rewrite IH. reflexivity. Qed.
  Lemma fold_plus l : forall a, fold_left Rplus l a = (a + Rsum (fun x => x) l)%R.
  Proof. induction l as [| x l IH]; intro a; cbn [fold_left Rsum fold_right]; [ring|]. rewrite IH. unfold Rsum. ring. Qed.
  Lemma zip_ok ns cs : forall es tl, List.length es = S (List.length cs) ->
    exists fs, zip cs (map (frac ns) cs ++ tl) es = Ok fs /\ Forall2 (fun c f => frname f = fname c /\ value f = frac ns c) cs fs /\ map error fs = firstn (List.length cs) es.
  Proof.
    clear Hn. induction cs as [| c cs IH]; intros es tl L; cbn [zip map app]; [exists []; repeat split; constructor|].
    destruct es as [| e es]; [discriminate|]. destruct (IH es tl) as (fs & A & B & C). { cbn in L. lia. } rewrite A. cbn [bind]. eexists. split; [reflexivity|]. split; [constructor; [split; reflexivity | exact B] | cbn; rewrite C; reflexivity].
  Qed.
  Lemma calculate_ok name ns cs : List.length (errors ns cs) = S (List.length cs) -> Forall (fun i => i < List.length g) ns -> Forall inside cs ->
    exists fs fs' e, calculate nm g errors name ns cs = Ok (fs' ++ [Fraction (S_ "Sum_" ++ name) (Rsum (frac ns) cs) e]) /\
      Permutation fs fs' /\ decreasing fs' /\ Forall2 (fun c f => frname f = fname c /\ value f = frac ns c) cs fs /\ map error fs ++ [e] = errors ns cs.
  Proof.
    intros He Hs Hc. unfold calculate, evaluate. rewrite (values_ok ns cs Hs Hc). cbn [bind]. destruct (zip_ok ns cs (errors ns cs) [fold_left Rplus (map (frac ns) cs) 0%R] He) as (fs & A & B & C).
    rewrite A. cbn [bind]. unfold last_of. rewrite rev_app_distr. cbn [rev app nth_error of_opt bind]. pose proof He as L.
    destruct (exists_last (l := errors ns cs)) as (es & e0 & E). { intro Z. rewrite Z in L. discriminate. } rewrite E in *. rewrite rev_app_distr. cbn [rev app nth_error of_opt bind].
    exists fs, (rev (sort fs)), e0. split; [| split; [| split; [| split]]].
    - do 4 f_equal. rewrite fold_plus. rewrite Rplus_0_l. unfold Rsum. clear. induction cs as [| c cs IH]; [reflexivity|]. cbn. rewrite IH. reflexivity.
    - eapply Permutation_trans; [apply sort_perm | apply Permutation_rev].
    - apply rev_dec, sort_inc.
    - exact B.
    - rewrite C. rewrite app_length in L. cbn in L. rewrite firstn_app. replace (List.length cs - List.length es) with 0 by lia. cbn. rewrite app_nil_r. rewrite firstn_all2 by lia. reflexivity.
  Qed.
End Calc.

Lemma sorted_eq (a : list nat) : forall b, StronglySorted lt a -> StronglySorted lt b -> (forall i, In i a <-> In i b) -> a = b.
Proof.
  induction a as [| x a IH]; intros b Sa Sb H; destruct b as [| y b]; [reflexivity | exfalso; apply (H y); left; reflexivity | exfalso; apply (H x); left; reflexivity |].
  inversion Sa as [| ? ? Sa' Fa]; inversion Sb as [| ? ? Sb' Fb]; subst. rewrite Forall_forall in Fa, Fb.
  assert (x = y). { destruct (proj1 (H x) (or_introl eq_refl)) as [|Hx]; [auto|]. destruct (proj2 (H y) (or_introl eq_refl)) as [|Hy]; [auto|]. apply Fb in Hx. apply Fa in Hy. lia. }
  subst y. f_equal. apply IH; [assumption | assumption |]. intro i. split; intro Hi.
  - destruct (proj1 (H i) (or_intror Hi)) as [<-|]; [apply Fa in Hi; lia | assumption].
  - destruct (proj2 (H i) (or_intror Hi)) as [<-|]; [apply Fb in Hi; lia | assumption].
Qed.
Lemma seq_sorted n : forall a, StronglySorted lt (seq a n).
Proof. induction n as [| n IH]; intro a; cbn; constructor; [apply IH|]. apply Forall_forall. intros i Hi. apply in_seq in Hi. lia. Qed.
Lemma rsum_map {A B} (f : B -> R) (h : A -> B) l : Rsum f (map h l) = Rsum (fun x => f (h x)) l.
Proof. unfold Rsum. induction l as [| x l IH]; [reflexivity|]. cbn. rewrite IH. reflexivity. Qed.
Lemma rsum_div {A} (f : A -> R) N l : Rsum (fun x => f x / N)%R l = (Rsum f l / N)%R.
Proof. unfold Rsum. induction l as [| x l IH]; cbn; [unfold Rdiv; ring|]. rewrite IH. unfold Rdiv. ring. Qed.
