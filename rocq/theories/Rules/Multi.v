(** Trees up to the order of daughters, and lists up to order and such an equivalence. *)
From Verif.Descriptor Require Import Spec Proofs.
From Verif.Rules Require Import Model Spec.
From Coq Require Import Permutation SetoidPermutation SetoidList.

Lemma alike_refl t : alike t t.
Proof. induction t as [n ms ds IH] using tree_ind'. apply (alike_tree n ms ds ds ds); [|reflexivity]. clear -IH. induction IH; constructor; assumption. Qed.
Lemma forall2_flip {A B} (R : A -> B -> Prop) l k : Forall2 R l k -> Forall2 (fun b a => R a b) k l.
Proof. induction 1; constructor; assumption. Qed.
Lemma alike_sym t u : alike t u -> alike u t.
Proof.
  revert u. induction t as [n ms ds IH] using tree_ind'. intros u H. inversion H as [? ? ? es fs F P]; subst.
  assert (G : Forall2 alike es ds). { clear H P fs. revert es F. induction IH as [|d l Hd _ IHl]; intros es F; inversion F; subst; constructor; auto. }
  destruct (Permutation_Forall2 P G) as (ds' & P' & G'). exact (alike_tree n ms fs ds' ds G' (Permutation_sym P')).
Qed.
Lemma alike_trans t u v : alike t u -> alike u v -> alike t v.
Proof.
  revert u v. induction t as [n ms ds IH] using tree_ind'. intros u v H K. inversion H as [? ? ? es fs F P]; subst. inversion K as [? ? ? gs hs F' P']; subst.
  destruct (Permutation_Forall2 (Permutation_sym P) F') as (gs' & Q & G). apply (alike_tree n ms ds gs' hs); [|now rewrite <- Q].
  clear H K P P' F' Q fs gs hs. revert es gs' F G. induction IH as [|d l Hd _ IHl]; intros es gs F G; inversion F; subst; inversion G; subst; constructor; eauto.
Qed.
#[export] Instance alike_equiv : Equivalence alike. Proof. split; [exact alike_refl|exact alike_sym|exact alike_trans]. Qed.

#[export] Instance same_equiv : Equivalence same.
Proof. split; [intros [t l]; split; reflexivity|intros a b [H K]; split; symmetry; assumption|intros a b c [H K] [H' K']; split; etransitivity; eassumption]. Qed.
Definition samel (a b : list tree * list rule) : Prop := PermutationA alike (fst a) (fst b) /\ Permutation (snd a) (snd b).
#[export] Instance samel_equiv : Equivalence samel.
Proof. split; [intros [t l]; split; reflexivity|intros a b [H K]; split; symmetry; assumption|intros a b c [H K] [H' K']; split; etransitivity; eassumption]. Qed.

Lemma PA_of_P {A} (R : A -> A -> Prop) `{Equivalence A R} l k : Permutation l k -> PermutationA R l k.
Proof. induction 1; [constructor|constructor; [reflexivity|assumption]|apply permA_swap|etransitivity; eassumption]. Qed.
Lemma PA_forall2 {A} (R : A -> A -> Prop) `{Equivalence A R} l k : PermutationA R l k -> exists m, Forall2 R l m /\ Permutation m k.
Proof.
  induction 1 as [|a b l k Hab _ (m & F & P)|a b l|l k m _ (p & F & P) _ (q & F' & P')].
  - exists []. split; constructor.
  - exists (b :: m). split; [now constructor|now constructor].
  - exists (b :: a :: l). split; [|apply perm_swap]. constructor; [reflexivity|]. constructor; [reflexivity|]. induction l; constructor; [reflexivity|assumption].
  - destruct (Permutation_Forall2 (Permutation_sym P) F') as (q' & Q & G). exists q'. split; [|now rewrite <- Q]. clear - F G H. revert q' G. induction F as [|x y l k Hxy F IH]; intros q G; inversion G; subst; constructor; [etransitivity; eassumption|auto].
Qed.
Lemma PA_in {A} (R : A -> A -> Prop) `{Equivalence A R} l k a : PermutationA R l k -> In a l -> exists b, In b k /\ R a b.
Proof.
  intros P I. destruct (PA_forall2 R l k P) as (m & F & Q). assert (G : exists b, In b m /\ R a b). { clear - F I. induction F as [|x y l m Hxy _ IH]; [destruct I|]. destruct I as [<- | I]; [exists y; split; [now left|exact Hxy]|]. destruct (IH I) as (b & Ib & Rb). exists b. split; [now right|exact Rb]. }
  destruct G as (b & Ib & Rb). exists b. split; [now apply (Permutation_in b Q)|exact Rb].
Qed.
Lemma alike_iff n ms ds fs : alike (Tree n ms ds) (Tree n ms fs) <-> PermutationA alike ds fs.
Proof.
  split.
  - intro H. inversion H as [? ? ? es ? F P]; subst. transitivity es; [|apply (PA_of_P alike); exact P]. clear - F. induction F; constructor; assumption.
  - intro H. destruct (PA_forall2 alike ds fs H) as (m & F & P). exact (alike_tree n ms ds m fs F P).
Qed.

Section Lists.
  Context {A B : Type} (RA : A -> A -> Prop) (RB : B -> B -> Prop) {EA : Equivalence RA} {EB : Equivalence RB}.
  Lemma PA_app l l' k k' : PermutationA RB l l' -> PermutationA RB k k' -> PermutationA RB (l ++ k) (l' ++ k').
  Proof. intros H K. now apply PermutationA_app; [assumption| |]. Qed.
  Lemma fm_perm (f : A -> list B) l l' : (forall a a', RA a a' -> PermutationA RB (f a) (f a')) -> PermutationA RA l l' -> PermutationA RB (flat_map f l) (flat_map f l').
  Proof.
    intros Hf H. induction H; cbn [flat_map].
    - constructor.
    - apply PA_app; auto.
    - rewrite !app_assoc. apply PA_app; [|reflexivity]. apply PA_of_P; [exact EB|]. apply Permutation_app_comm.
    - etransitivity; eassumption.
  Qed.
  Lemma fm_ext (f g : A -> list B) l : (forall a, In a l -> PermutationA RB (f a) (g a)) -> PermutationA RB (flat_map f l) (flat_map g l).
  Proof. induction l as [|a l IH]; intro H; [constructor|]. cbn [flat_map]. apply PA_app; [apply H; now left|apply IH; intros; apply H; now right]. Qed.
  Lemma map_perm (f : A -> B) l l' : (forall a a', RA a a' -> RB (f a) (f a')) -> PermutationA RA l l' -> PermutationA RB (map f l) (map f l').
  Proof. intros Hf H. induction H; cbn [map]; [constructor|constructor; auto|apply permA_swap|etransitivity; eassumption]. Qed.
  Lemma map_extP (f g : A -> B) l : (forall a, In a l -> RB (f a) (g a)) -> PermutationA RB (map f l) (map g l).
  Proof. induction l as [|a l IH]; intro H; [constructor|]. cbn [map]. constructor; [apply H; now left|apply IH; intros; apply H; now right]. Qed.
End Lists.
Lemma fm_exchange {A B C} (h : A -> B -> list C) la lb : Permutation (flat_map (fun a => flat_map (h a) lb) la) (flat_map (fun b => flat_map (fun a => h a b) la) lb).
Proof.
  induction la as [|a la IH]; cbn [flat_map]; [induction lb; [constructor|exact IHlb]|]. rewrite IH. clear IH. induction lb as [|b lb IH]; [constructor|]. cbn [flat_map]. rewrite <- IH, !app_assoc. apply Permutation_app_tail. rewrite <- !app_assoc. apply Permutation_app_head. apply Permutation_app_comm.
Qed.
Lemma map_fm {A B C} (f : B -> C) (g : A -> list B) l : map f (flat_map g l) = flat_map (fun a => map f (g a)) l.
Proof. induction l as [|a l IH]; [reflexivity|]. cbn [flat_map]. now rewrite map_app, IH. Qed.
Lemma fm_fm {A B C} (f : B -> list C) (g : A -> list B) l : flat_map f (flat_map g l) = flat_map (fun a => flat_map f (g a)) l.
Proof. induction l as [|a l IH]; [reflexivity|]. cbn [flat_map]. now rewrite flat_map_app, IH. Qed.
Lemma fm_map {A B C} (f : B -> list C) (g : A -> B) l : flat_map f (map g l) = flat_map (fun a => f (g a)) l.
Proof. induction l as [|a l IH]; [reflexivity|]. cbn [map flat_map]. now rewrite IH. Qed.
Lemma map_as_fm {A B} (f : A -> B) l : map f l = flat_map (fun a => [f a]) l.
Proof. induction l as [|a l IH]; [reflexivity|]. cbn. now rewrite IH. Qed.

(** ** Choices *)
Definition pair_up (a : tree * list rule) (b : list tree * list rule) : list tree * list rule := (fst a :: fst b, snd a ++ snd b).
Lemma choices_cons l r : choices (l :: r) = flat_map (fun a => map (pair_up a) (choices r)) l.
Proof. reflexivity. Qed.
Lemma pair_up_same a a' b b' : same a a' -> samel b b' -> samel (pair_up a b) (pair_up a' b').
Proof. intros [H K] [H' K']. split; cbn; [now constructor|now apply Permutation_app]. Qed.
Lemma choices_ext ls ks : Forall2 (PermutationA same) ls ks -> PermutationA samel (choices ls) (choices ks).
Proof.
  induction 1 as [|l k ls ks H _ IH]; [reflexivity|]. rewrite !choices_cons.
  transitivity (flat_map (fun a => map (pair_up a) (choices ks)) l).
  - apply fm_ext; [typeclasses eauto|]. intros a _. apply (map_perm samel samel); [|exact IH]. intros b b' Hb. now apply pair_up_same.
  - apply (fm_perm same samel); [|exact H]. intros a a' Ha. apply map_extP. intros b _. now apply pair_up_same.
Qed.
Lemma choices_perm ls ks : Permutation ls ks -> PermutationA samel (choices ls) (choices ks).
Proof.
  induction 1 as [|l ls ks _ IH|l k ls|ls ks ms _ IH _ IH'].
  - reflexivity.
  - rewrite !choices_cons. apply fm_ext; [typeclasses eauto|]. intros a _. apply (map_perm samel samel); [|exact IH]. intros b b' Hb. now apply pair_up_same.
  - rewrite !choices_cons. set (C := choices ls).
    assert (E : forall l k, flat_map (fun a => map (pair_up a) (flat_map (fun a0 => map (pair_up a0) C) l)) k = flat_map (fun a => flat_map (fun b => map (fun c => pair_up a (pair_up b c)) C) l) k).
    { intros l' k'. apply flat_map_ext. intro a. rewrite map_fm. apply flat_map_ext. intro b. now rewrite map_map. }
    rewrite !E. transitivity (flat_map (fun b => flat_map (fun a => map (fun c => pair_up a (pair_up b c)) C) k) l); [apply PA_of_P; [typeclasses eauto|]; apply fm_exchange|].
    apply fm_ext; [typeclasses eauto|]. intros b _. apply fm_ext; [typeclasses eauto|]. intros a _. apply map_extP. intros c _. split; cbn; [apply permA_swap|]. rewrite !app_assoc. apply Permutation_app_tail. apply Permutation_app_comm.
  - etransitivity; eassumption.
Qed.
