From Verif.Common Require Import Prelude.
From Coq Require Import Reals Lra.
From Coquelicot Require Import Hierarchy Complex.
From Verif.Utilities Require Import Model Spec Proofs.
From Verif.Conjugate Require Import Model Spec.
Local Open Scope nat_scope.

Lemma find_colons_none s : ~ In ":"%char s -> find_from colons s 0 = None.
Proof.
  intro H. unfold find_from. cbn [Nat.ltb Nat.leb skipn]. destruct (find0 colons s) as [k|] eqn:E; [|reflexivity]. exfalso.
  apply H. clear H. revert k E. induction s as [|c s IH]; intros k E; [discriminate|].
  destruct (ascii_dec ":"%char c) as [<-|N]; [now left|]. right. change (find0 colons (c :: s)) with (if (Ascii.eqb ":" c && prefixb (":"%char :: nil) s)%bool then Some 0 else option_map S (find0 colons s)) in E.
  apply Ascii.eqb_neq in N. rewrite N in E. cbn [andb] in E. destruct (find0 colons s) as [j|] eqn:F; [|discriminate]. eauto.
Qed.
Lemma find_colons p x : ~ In ":"%char p -> find_from colons (p ++ S_ "::" ++ x) 0 = Some (List.length p).
Proof.
  intro H. unfold find_from. cbn [Nat.ltb Nat.leb skipn]. enough (E : find0 colons (p ++ S_ "::" ++ x) = Some (List.length p)) by now rewrite E.
  induction p as [|c p IH]; [reflexivity|]. cbn [app]. set (r := p ++ S_ "::" ++ x) in *.
  change (find0 colons (c :: r)) with (if (Ascii.eqb ":" c && prefixb (":"%char :: nil) r)%bool then Some 0 else option_map S (find0 colons r)).
  assert (N : ":"%char <> c) by (intro K; apply H; left; now symmetry). apply Ascii.eqb_neq in N. rewrite N. cbn [andb]. rewrite IH by (intro; apply H; now right). reflexivity.
Qed.
Lemma piece_token t : piece t -> ~ In underscore t /\ ~ blank t.
Proof. intros (H & _ & H1 & H2 & H3 & H4). split; [exact H|]. unfold blank. tauto. Qed.
Lemma Re_piece : piece (S_ "Re"). Proof. repeat split; try easy; cbn; intuition discriminate. Qed.
Lemma Im_piece : piece (S_ "Im"). Proof. repeat split; try easy; cbn; intuition discriminate. Qed.
Lemma split2 p x : piece p -> piece x -> Utilities.Model.split (p ++ S_ "_" ++ x) underscore true = (p :: x :: nil).
Proof.
  intros Hp Hx. transitivity (Utilities.Model.split (join underscore (p :: x :: nil)) underscore true).
  - f_equal.
  - apply split_join. repeat constructor; now apply piece_token.
Qed.
Lemma split1 p : piece p -> Utilities.Model.split p underscore true = p :: nil.
Proof. intro Hp. apply (split_join underscore (p :: nil)). repeat constructor; now apply piece_token. Qed.
Lemma no_colon2 p x : piece p -> piece x -> ~ In ":"%char (p ++ S_ "_" ++ x).
Proof. intros (_ & H & _) (_ & K & _) I. apply in_app_or in I as [I|I]; [auto|]. cbn in I. destruct I as [I|I]; [discriminate|auto]. Qed.
Lemma mem_in s l : mem s l = true <-> In s l.
Proof. unfold mem. rewrite existsb_exists. split; [intros (y & I & E); apply str_eqb_eq in E; now subst|intro I; exists s; split; [exact I|apply str_eqb_refl]]. Qed.
Lemma mem_not s l : ~ In s l -> mem s l = false.
Proof. intro H. destruct (mem s l) eqn:E; [apply mem_in in E; contradiction|reflexivity]. Qed.

Definition scaled (s : Z) (q q' : quantity) : Prop := forall x, mean q' x = (IZR s * mean q x)%R.
Lemma conjugate_by_name w n n' s q : conjugate_name w n n' s -> exists q', conjugate w (n, q) = Ok (Some (n', q')) /\ scaled s q q'.
Proof.
  destruct 1 as [p a x Hp Ha|p a x Hp Hx N1 N2 Ha|p d Hp Hd Hf Hdist Hc|p d Hp Hd Hf Hdist Hc|p d Hp Hd Hf Hdist Hc|p d Hp Hv Hd Hf].
  - exists (Same q). unfold conjugate. rewrite find_colons by exact Hp. rewrite firstn_app, Nat.sub_diag, firstn_all, app_nil_r, Ha.
    rewrite skipn_app, Nat.sub_diag, skipn_all. split; [reflexivity|]. intro e. unfold mean. cbn. lra.
  - exists (Times 1 q). unfold conjugate. rewrite find_colons_none by now apply no_colon2. rewrite split2 by assumption. cbn [List.length Nat.eqb andb last].
    destruct (str_eqb_spec x (S_ "Re")); [contradiction|]. destruct (str_eqb_spec x (S_ "Im")); [contradiction|]. cbn [orb]. rewrite Ha. split; [reflexivity|].
    intro e. unfold mean. cbn. lra.
  - exists (Times (CP d) q). unfold conjugate. change (S_ "_Re") with (S_ "_" ++ S_ "Re").
    rewrite find_colons_none by (apply no_colon2; [assumption|exact Re_piece]). rewrite split2 by (assumption || exact Re_piece). cbn [List.length Nat.eqb andb last].
    rewrite Hd. change (str_eqb (S_ "Re") (S_ "Re") || _) with true. cbn [bind]. rewrite (mem_not _ _ Hf), Hdist. cbn [negb].
    split; [|intro e; unfold mean; cbn; lra]. destruct Hc as [-> | ->]; reflexivity.
  - exists (Times (CP d) q). unfold conjugate. change (S_ "_Im") with (S_ "_" ++ S_ "Im").
    rewrite find_colons_none by (apply no_colon2; [assumption|exact Im_piece]). rewrite split2 by (assumption || exact Im_piece). cbn [List.length Nat.eqb andb last].
    rewrite Hd. change (str_eqb (S_ "Im") (S_ "Re") || _) with true. cbn [bind]. rewrite (mem_not _ _ Hf), Hdist. cbn [negb].
    split; [|intro e; unfold mean; cbn; lra]. rewrite Hc. reflexivity.
  - exists (Times 1 q). unfold conjugate. change (S_ "_Im") with (S_ "_" ++ S_ "Im").
    rewrite find_colons_none by (apply no_colon2; [assumption|exact Im_piece]). rewrite split2 by (assumption || exact Im_piece). cbn [List.length Nat.eqb andb last].
    rewrite Hd. change (str_eqb (S_ "Im") (S_ "Re") || _) with true. cbn [bind]. rewrite (mem_not _ _ Hf), Hdist. cbn [negb].
    split; [|intro e; unfold mean; cbn; lra]. rewrite Hc. reflexivity.
  - exists (Conj q). unfold conjugate. rewrite find_colons_none by (destruct Hp as (_ & K & _); exact K). rewrite (split1 _ Hp). cbn [List.length Nat.eqb andb]. rewrite Hv, Hd. cbn [bind].
    rewrite (mem_not _ _ Hf). split; [reflexivity|]. intro e. unfold mean. cbn. lra.
Qed.

Lemma has_in n l : has n l = true <-> In n (names l).
Proof.
  unfold has, names. rewrite existsb_exists, in_map_iff. split.
  - intros (e & I & E). apply str_eqb_eq in E. exists e. now split.
  - intros (e & E & I). exists e. split; [exact I|]. rewrite E. apply str_eqb_refl.
Qed.
Lemma insert_app tmp : forall l, exists new, insert l tmp = l ++ new /\ (forall e, In e new -> In e tmp) /\
  (NoDup (names l) -> NoDup (names (l ++ new))) /\ (forall e, In e new -> ~ In (fst e) (names l)) /\ (forall e, In e tmp -> In (fst e) (names (l ++ new))).
Proof.
  induction tmp as [|e tmp IH]; intro l; cbn [insert].
  - exists []. rewrite app_nil_r. repeat split; auto; intros ? [].
  - destruct (has (fst e) l) eqn:H.
    + destruct (IH l) as (new & -> & A & B & D & F). exists new. split; [reflexivity|]. split; [intros x I; right; auto|]. split; [exact B|]. split; [exact D|].
      intros x [<-|I]; [|auto]. apply has_in in H. unfold names in *. rewrite map_app. apply in_or_app. now left.
    + destruct (IH (l ++ e :: nil)) as (new & -> & A & B & D & F). rewrite <- app_assoc in *. cbn [app] in *. exists (e :: new). split; [reflexivity|].
      assert (N : ~ In (fst e) (names l)) by (intro I; apply has_in in I; congruence).
      split; [intros x [<-|I]; [now left|right; auto]|]. split.
      { intro ND. apply B. unfold names in *. rewrite map_app. cbn [map]. apply NoDup_Add with (a := fst e) (l := map fst l ++ []).
        - apply Add_app.
        - rewrite app_nil_r. split; assumption. }
      split.
      { intros x [<-|I]; [exact N|]. intro K. apply (D x I). unfold names in *. rewrite map_app. apply in_or_app. now left. }
      intros x [<-|I]; [|auto]. unfold names. rewrite map_app. apply in_or_app. right. now left.
Qed.
Lemma collect_in w l tmp : collect w l = Ok tmp -> forall e', In e' tmp -> exists e, In e l /\ conjugate w e = Ok (Some e').
Proof.
  revert tmp. induction l as [|e l IH]; intros tmp H e' I; cbn [collect] in H.
  - injection H as <-. destruct I.
  - destruct (conjugate w e) as [o| | |] eqn:E; try discriminate. cbn [bind] in H. destruct (collect w l) as [t| | |]; try discriminate. injection H as <-.
    destruct o as [n|]; [destruct I as [<-|I]|]; [exists e; split; [now left|exact E]| |]; destruct (IH _ eq_refl _ I) as (e0 & I0 & E0); exists e0; (split; [now right|exact E0]).
Qed.
Lemma collect_all w l tmp : collect w l = Ok tmp -> forall e e', In e l -> conjugate w e = Ok (Some e') -> In e' tmp.
Proof.
  revert tmp. induction l as [|e l IH]; intros tmp H e0 e' I E0; cbn [collect] in H; [destruct I|].
  destruct (conjugate w e) as [o| | |] eqn:E; try discriminate. cbn [bind] in H. destruct (collect w l) as [t| | |]; try discriminate. injection H as <-.
  destruct I as [<-|I]; [rewrite E in E0; injection E0 as ->; now left|]. pose proof (IH _ eq_refl _ _ I E0) as K. destruct o; [now right|exact K].
Qed.
Lemma collect_ok w l : Forall (fun e => exists o, conjugate w e = Ok o) l -> exists tmp, collect w l = Ok tmp.
Proof.
  induction 1 as [|e l (o & E) _ (t & IH)]; cbn [collect]; [eauto|]. rewrite E, IH. cbn. eauto.
Qed.
Lemma insert_nothing l tmp : (forall e, In e tmp -> In (fst e) (names l)) -> insert l tmp = l.
Proof.
  induction tmp as [|e tmp IH]; intro H; cbn [insert]; [reflexivity|].
  assert (K : has (fst e) l = true) by (apply has_in, H; now left). rewrite K. apply IH. intros x I. apply H. now right.
Qed.
Lemma lookup_in n l q : NoDup (names l) -> In (n, q) l -> lookup n l = Some q.
Proof.
  unfold lookup. induction l as [|[m p] l IH]; intros ND I; [destruct I|]. cbn in ND. inversion ND as [|? ? N1 N2]; subst. cbn [find fst]. destruct I as [E|I].
  - injection E as -> ->. now rewrite str_eqb_refl.
  - destruct (str_eqb_spec n m) as [->|]; [|auto]. exfalso. apply N1. apply in_map_iff. exists (m, q). now split.
Qed.
Lemma lookup_None n l : ~ In n (names l) -> lookup n l = None.
Proof.
  unfold lookup. intro H. destruct (find (fun e => str_eqb n (fst e)) l) as [e|] eqn:E; [|reflexivity]. apply find_some in E as [I E]. apply str_eqb_eq in E. exfalso. apply H. subst. now apply in_map.
Qed.
