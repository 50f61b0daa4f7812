From Verif.Common Require Import Prelude Writes.
From Verif.Tree Require Import Model Spec Proofs.

Scheme holds_mut := Induction for holds Sort Prop with holds_all_mut := Induction for holds_all Sort Prop.
Combined Scheme holds_both from holds_mut, holds_all_mut.

Lemma frame h : (forall n t fp, holds h n t fp -> forall h', agree h h' fp -> holds h' n t fp) /\
  (forall ks ts fp, holds_all h ks ts fp -> forall h', agree h h' fp -> holds_all h' ks ts fp).
Proof.
  apply holds_both.
  - intros n ts fp _ IH h' A. constructor. now apply IH.
  - intros h' _. constructor.
  - intros k ks d t ts f fs E _ IH1 _ IH2 h' A. apply (holds_cons h' k ks d).
    + rewrite A; [exact E|now left].
    + apply IH1. intros x I. apply A. right. apply in_or_app. now left.
    + apply IH2. intros x I. apply A. right. apply in_or_app. now right.
Qed.
Lemma bounded h : (forall n t fp, holds h n t fp -> forall k, In k fp -> k < List.length h) /\
  (forall ks ts fp, holds_all h ks ts fp -> forall k, In k fp -> k < List.length h).
Proof.
  apply holds_both.
  - intros n ts fp _ IH. exact IH.
  - intros k [].
  - intros k ks d t ts f fs E _ IH1 _ IH2 x [<-|I]; [apply nth_error_Some; congruence|]. apply in_app_or in I as [I|I]; [now apply IH1|now apply IH2].
Qed.
Lemma agree_app h e l : (forall k, In k l -> k < List.length h) -> agree h (h ++ e) l.
Proof. intros B k I. now rewrite nth_error_app1 by now apply B. Qed.
Lemma holds_app h e n t fp : holds h n t fp -> holds (h ++ e) n t fp.
Proof. intro H. apply (proj1 (frame h) n t fp H). apply agree_app. exact (proj1 (bounded h) n t fp H). Qed.
Lemma holds_all_app h e n t fp : holds_all h n t fp -> holds_all (h ++ e) n t fp.
Proof. intro H. apply (proj2 (frame h) n t fp H). apply agree_app. exact (proj2 (bounded h) n t fp H). Qed.
Lemma all_app h ks ts fp : holds_all h ks ts fp -> forall ks' ts' fp', holds_all h ks' ts' fp' -> holds_all h (ks ++ ks') (ts ++ ts') (fp ++ fp').
Proof.
  induction ks as [|k ks IH] in ts, fp |- *; intros H ks' ts' fp' H'; inversion H as [|? ? d t ts0 f fs E Hd Hr]; subst; [exact H'|].
  cbn. rewrite <- app_assoc. apply (holds_cons h k _ d); [exact E|exact Hd|]. now apply IH.
Qed.
(** What is in memory does not depend on what it was found for. *)
Lemma holds_fun h : (forall n t fp, holds h n t fp -> forall t' fp', holds h n t' fp' -> t = t' /\ fp = fp') /\
  (forall ks ts fp, holds_all h ks ts fp -> forall ts' fp', holds_all h ks ts' fp' -> ts = ts' /\ fp = fp').
Proof.
  apply holds_both.
  - intros n ts fp _ IH t' fp' H. inversion H as [? ts' ? H']; subst. apply IH in H' as [-> ->]. now split.
  - intros ts' fp' H. inversion H. now split.
  - intros k ks d t ts f fs E _ IH1 _ IH2 ts' fp' H. inversion H as [|? ? d' ? ? ? ? E' H1 H2]; subst. rewrite E in E'. injection E' as <-.
    apply IH1 in H1 as [-> ->]. apply IH2 in H2 as [-> ->]. now split.
Qed.

Section CloneLoop.
  Variable cl : heap -> node -> res (heap * node).
  Variable n : node.
  Fixpoint clone_loop (h : heap) (done ks : list nat) : res (heap * node) :=
    match ks with
    | nil => Ok (h, with_kids n done)
    | k :: ks' => match nth_error h k with None => UB | Some d => bind (cl h d) (fun r => clone_loop (fst r ++ [snd r]) (done ++ [List.length (fst r)]) ks') end
    end.
End CloneLoop.
Lemma clone_eq f h n : clone (S f) h n = clone_loop (clone f) n h [] (kids n). Proof. reflexivity. Qed.

Definition cloned (h : heap) (n : node) (t : tree) (r : heap * node) :=
  exists fp e, fst r = h ++ e /\ holds (fst r) (snd r) t fp /\ NoDup fp /\ (forall k, In k fp -> List.length h <= k < List.length (fst r)) /\ cached (snd r) = cached n.
Lemma height_le t ds : In t ds -> height t <= fold_right (fun d n => Nat.max (height d) n) 0 ds.
Proof. induction ds as [|d ds IH]; intros []; cbn; [subst; lia|]. specialize (IH H). lia. Qed.
Lemma NoDup_app_intro {A} (a b : list A) : NoDup a -> NoDup b -> (forall x, In x a -> ~ In x b) -> NoDup (a ++ b).
Proof.
  induction a as [|x a IH]; intros Ha Hb D; [exact Hb|]. inversion Ha; subst. cbn. constructor.
  - rewrite in_app_iff. intros [I|I]; [contradiction|]. now apply (D x (or_introl eq_refl)).
  - apply IH; auto. intros y I. apply D. now right.
Qed.
Lemma clone_loop_ok cl n : forall ks h ts fs done, holds_all h ks ts fs ->
  (forall h t d f, In t ts -> holds h d t f -> exists r, cl h d = Ok r /\ cloned h d t r) ->
  exists h' ks' fs' e, clone_loop cl n h done ks = Ok (h', with_kids n (done ++ ks')) /\ h' = h ++ e /\ holds_all h' ks' ts fs' /\ NoDup fs' /\ (forall k, In k fs' -> List.length h <= k < List.length h').
Proof.
  induction ks as [|k ks IH]; intros h ts fs done H C; inversion H as [|? ? d t ts0 f fs0 E Hd Hr]; subst.
  - exists h, [], [], []. cbn. rewrite !app_nil_r. repeat split; try constructor; try contradiction.
  - cbn. rewrite E. destruct (C h t d f (or_introl eq_refl) Hd) as ([h1 d'] & -> & fp1 & e1 & E1 & H1 & N1 & B1 & _). cbn [fst snd bind] in *.
    subst h1. destruct (IH ((h ++ e1) ++ [d']) ts0 fs0 (done ++ [List.length (h ++ e1)])) as (h' & ks' & fs' & e & -> & Eh & Ha & Nd & B).
    { apply holds_all_app, holds_all_app, Hr. } { intros h2 t2 d2 f2 I. apply C. now right. }
    exists h', (List.length (h ++ e1) :: ks'), (List.length (h ++ e1) :: fp1 ++ fs'), (e1 ++ [d'] ++ e). split; [now rewrite <- app_assoc|].
    rewrite !app_length in B, B1. cbn in B. rewrite !app_length in *. 
    split; [rewrite Eh; now rewrite <- !app_assoc|]. split.
    { apply (holds_cons h' _ _ d').
      - rewrite Eh. rewrite nth_error_app1 by (rewrite !app_length; cbn; lia). rewrite nth_error_app2 by (rewrite app_length; lia). rewrite app_length, Nat.sub_diag. reflexivity.
      - rewrite Eh. now apply holds_app, holds_app.
      - exact Ha. }
    assert (LE : List.length h' = List.length h + List.length e1 + 1 + List.length e) by (rewrite Eh, !app_length; cbn; lia).
    split.
    + constructor.
      * rewrite in_app_iff. intros [I|I]; [apply B1 in I; lia|apply B in I; lia].
      * apply NoDup_app_intro; [exact N1|exact Nd|]. intros x I J. apply B1 in I. apply B in J. lia.
    + intros x [<-|I]; [lia|]. apply in_app_or in I as [I|I]; [apply B1 in I; lia|apply B in I; lia].
Qed.
Lemma clone_ok : forall f h n t fp, holds h n t fp -> height t <= f -> exists r, clone f h n = Ok r /\ cloned h n t r.
Proof.
  induction f as [|f IH]; intros h n t fp H L; [destruct t; cbn in L; lia|]. rewrite clone_eq. inversion H as [? ts ? Ha]; subst.
  destruct (clone_loop_ok (clone f) n (kids n) h ts fp [] Ha) as (h' & ks' & fs' & e & -> & Eh & Hk & Nd & B).
  { intros h2 t2 d2 f2 I H2. apply (IH h2 d2 t2 f2 H2). cbn in L. pose proof (height_le _ _ I). lia. }
  eexists. split; [reflexivity|]. exists fs', e. cbn [fst snd]. split; [exact Eh|]. split; [|now split]. change (what n) with (what (with_kids n ks')). constructor. exact Hk.
Qed.

Section ExpandLoop.
  Variable ex : heap -> node -> res (heap * node * bool).
  Variable n p : node.
  Fixpoint expand_loop (h : heap) (done ks : list nat) : res (heap * node * bool) :=
         match ks with
         | nil => Ok (h, with_kids n done, false)
         | k :: ks' =>
             match nth_error h k with
             | None => UB
             | Some d =>
                 if str_eqb (name (what d)) (name (what p)) && (match kids d with nil => true | _ => false end)
                 then Ok (h ++ [p], with_kids n (done ++ List.length h :: ks'), true)
                 else bind (ex h d) (fun r =>
                        let '(h', d', worked) := r in
                        let h'' := write h' k d' in
                        if (worked : bool) then Ok (h'', with_kids n (done ++ k :: ks'), true) else expand_loop h'' (done ++ [k]) ks')
             end
         end.
End ExpandLoop.
Lemma expand_eq f h n p : expand (S f) h n p = expand_loop (fun h d => expand f h d p) n p h [] (kids n). Proof. reflexivity. Qed.

Lemma write_nth h k d : k < List.length h -> List.length (write h k d) = List.length h /\ forall i, nth_error (write h k d) i = if i =? k then Some d else nth_error h i.
Proof. intro L. unfold write. destruct (set_at_Some k d h L) as (h' & -> & Hl & Hn). now split. Qed.
Lemma write_same h k d : nth_error h k = Some d -> write h k d = h.
Proof.
  intro E. assert (L : k < List.length h) by (apply nth_error_Some; congruence). destruct (write_nth h k d L) as (_ & H). apply nth_error_ext_eq. intro i. rewrite H.
  destruct (Nat.eqb_spec i k) as [->|]; congruence.
Qed.
Lemma with_kids_same n : with_kids n (kids n) = n. Proof. now destruct n. Qed.

Definition outcome (h : heap) (n : node) (t : tree) (fp : list nat) (tp : tree) (fpp : list nat) (r : heap * node * bool) :=
  let '(h', n', w) := r in
  what n' = what n /\ cached n' = cached n /\
  if w : bool then
    List.length h <= List.length h' /\ (forall k, ~ In k fp -> k < List.length h -> nth_error h' k = nth_error h k) /\
    exists t' fp', holds h' n' t' fp' /\ replaced tp t t' /\ forall k, In k fp' -> In k fp \/ In k fpp \/ List.length h <= k
  else h' = h /\ n' = n /\ ~ below (name (item_of tp)) t.
Definition quiet s x := ~ hit s x /\ ~ below s x.
Lemma not_below s i ds : Forall (quiet s) ds -> ~ below s (Node i ds).
Proof. rewrite Forall_forall. intros H B. inversion B as [? ? d I N E|? ? d I B']; subst; destruct (H d I) as [H1 H2]; [apply H1; now split|now apply H2]. Qed.
Lemma expand_loop_ok ex n p h tp fpp : holds h p tp fpp ->
  forall ks ts fs done l fl, n = with_kids n (done ++ ks) -> holds_all h ks ts fs -> holds_all h done l fl -> Forall (quiet (name (item_of tp))) l -> NoDup (fl ++ fs) -> (forall k, In k (fl ++ fs) -> ~ In k fpp) ->
  (forall t d f, In t ts -> holds h d t f -> NoDup f -> (forall k, In k f -> ~ In k fpp) -> exists r, ex h d = Ok r /\ outcome h d t f tp fpp r) ->
  exists r, expand_loop ex n p h done ks = Ok r /\ outcome h n (Node (what n) (l ++ ts)) (fl ++ fs) tp fpp r.
Proof.
  intro Hp. assert (Np : name (item_of tp) = name (what p)) by (inversion Hp; reflexivity).
  induction ks as [|k ks IH]; intros ts fs done l fl En H Hdone Q ND DJ C; inversion H as [|? ? d t ts0 f fs0 E Hd Hr]; subst.
  - cbn. eexists. split; [reflexivity|]. cbn. rewrite !app_nil_r in *. repeat split; try reflexivity. + now symmetry. + now apply not_below.
  - cbn. rewrite E. assert (Hit : hit (name (item_of tp)) t <-> str_eqb (name (what d)) (name (what p)) && (match kids d with nil => true | _ => false end) = true).
    { rewrite andb_true_iff, str_eqb_eq, Np. inversion Hd as [? ts1 ? Ha]; subst. unfold hit. cbn [item_of daughters]. destruct (kids d) eqn:K; inversion Ha; subst; intuition discriminate. }
    assert (kl : k < List.length h) by (apply nth_error_Some; congruence).
    destruct (str_eqb _ _ && _).
    + eexists. split; [reflexivity|]. cbn. repeat split; try reflexivity. { rewrite app_length. lia. } { intros i _ Hi. now rewrite nth_error_app1. }
      exists (Node (what n) (l ++ tp :: ts0)), (fl ++ (List.length h :: fpp ++ fs0)). split; [|split].
      * change (what n) with (what (with_kids n (done ++ List.length h :: ks))). constructor. cbn [kids with_kids]. apply all_app; [now apply holds_all_app|].
        apply (holds_cons _ _ _ p); [rewrite nth_error_app2, Nat.sub_diag by lia; reflexivity|now apply holds_app|now apply holds_all_app].
      * constructor; [exact Q|now apply Hit].
      * intros i I. apply in_app_or in I as [I|[<-|I]]; [left; apply in_or_app; now left|right; now right|]. apply in_app_or in I as [I|I]; [right; now left|left; apply in_or_app; right; right; apply in_or_app; now right].
    + assert (Nh : ~ hit (name (item_of tp)) t) by (rewrite Hit; discriminate). clear Hit.
      assert (NDf : NoDup (k :: f ++ fs0)). { clear -ND. induction fl; [exact ND|]. apply IHfl. now inversion ND. }
      destruct (C t d f (or_introl eq_refl) Hd) as ([[h' d'] w] & -> & Wd & Cd & O).
      { clear -NDf. inversion NDf as [|? ? _ N]; subst. clear -N. induction f; [constructor|]. inversion N; subst. constructor; [|now apply IHf]. intro I. apply H1. apply in_or_app. now left. }
      { intros i I. apply DJ. apply in_or_app. right. right. apply in_or_app. now left. }
      cbn [bind]. destruct w.
      * destruct O as (Lh & Fr & t' & f' & H' & R & Ba). eexists. split; [reflexivity|]. cbn.
        destruct (write_nth h' k d' ltac:(lia)) as (Wl & Wn). repeat split; try reflexivity. { lia. }
        { intros i Hi Li. rewrite Wn. destruct (Nat.eqb_spec i k) as [->|D]; [exfalso; apply Hi; apply in_or_app; right; now left|]. apply Fr; [|exact Li]. intro I. apply Hi. apply in_or_app. right. right. apply in_or_app. now left. }
        assert (kf' : ~ In k f'). { intro I. apply Ba in I as [I|[I|I]]; [|apply (DJ k); [apply in_or_app; right; now left|exact I]|lia]. inversion NDf as [|? ? X _]; subst. apply X. apply in_or_app. now left. }
        assert (Ag : forall m, (forall i, In i m -> i < List.length h /\ ~ In i f /\ i <> k) -> agree h (write h' k d') m).
        { intros m Hm i I. destruct (Hm i I) as (A1 & A2 & A3). rewrite Wn. destruct (Nat.eqb_spec i k) as [->|D]; [contradiction|]. now apply Fr. }
        exists (Node (what n) (l ++ t' :: ts0)), (fl ++ (k :: f' ++ fs0)). split; [|split].
        -- change (what n) with (what (with_kids n (done ++ k :: ks))). constructor. cbn [kids with_kids]. apply all_app; [|apply (holds_cons _ _ _ d')].
           ++ apply (proj2 (frame h) _ _ _ Hdone). apply Ag. intros i I. split; [now apply (proj2 (bounded h) _ _ _ Hdone)|].
              clear -ND I. induction fl as [|x fl IHf]; [destruct I|]. cbn in ND. inversion ND as [|? ? X N]; subst. destruct I as [<-|I]; [|now apply IHf].
              split; [intro J|intros ->]; apply X; apply in_or_app; right; [right; apply in_or_app; now left|now left].
           ++ rewrite Wn, Nat.eqb_refl. reflexivity.
           ++ apply (proj1 (frame h') _ _ _ H'). intros i I. rewrite Wn. destruct (Nat.eqb_spec i k) as [->|D]; [contradiction|reflexivity].
           ++ apply (proj2 (frame h) _ _ _ Hr). apply Ag. intros i I. split; [now apply (proj2 (bounded h) _ _ _ Hr)|].
              inversion NDf as [|? ? X N]; subst. split; [|intros ->; apply X; apply in_or_app; now right].
              clear -N I. induction f as [|x f IHf]; [easy|]. cbn in N. inversion N as [|? ? X N']; subst. intros [<-|J]; [apply X; apply in_or_app; now right|now apply IHf].
        -- apply replaced_deep; [exact Q|exact Nh|exact R].
        -- intros i I. apply in_app_or in I as [I|[<-|I]]; [left; apply in_or_app; now left|left; apply in_or_app; right; now left|].
           apply in_app_or in I as [I|I]; [|left; apply in_or_app; right; right; apply in_or_app; now right].
           apply Ba in I as [I|[I|I]]; [left; apply in_or_app; right; right; apply in_or_app; now left|right; now left|right; now right].
      * destruct O as (-> & -> & Nb). rewrite (write_same h k d E).
        destruct (IH ts0 fs0 (done ++ [k]) (l ++ [t]) (fl ++ (k :: f))) as (r & Er & O).
        { rewrite <- app_assoc. exact En. } { exact Hr. }
        { apply all_app; [exact Hdone|]. rewrite <- (app_nil_r f). apply (holds_cons _ _ _ d); [exact E|exact Hd|constructor]. }
        { apply Forall_app. split; [exact Q|]. constructor; [|constructor]. now split. }
        { rewrite <- app_assoc. exact ND. } { rewrite <- app_assoc. exact DJ. } { intros t2 d2 f2 I. apply C. now right. }
        exists r. split; [exact Er|]. rewrite <- !app_assoc in O. exact O.
Qed.
Lemma expand_ok : forall f h n p t fp tp fpp, holds h n t fp -> NoDup fp -> holds h p tp fpp -> (forall k, In k fp -> ~ In k fpp) -> height t <= f -> exists r, expand f h n p = Ok r /\ outcome h n t fp tp fpp r.
Proof.
  induction f as [|f IH]; intros h n p t fp tp fpp H ND Hp DJ L; [destruct t; cbn in L; lia|]. rewrite expand_eq. inversion H as [? ts ? Ha]; subst.
  apply (expand_loop_ok _ n p h tp fpp Hp (kids n) ts fp [] [] []); try assumption; try constructor.
  - cbn. now rewrite with_kids_same.
  - intros t d f0 I Hd Nd Dj. apply (IH h d p t f0 tp fpp Hd Nd Hp Dj). cbn in L. pose proof (height_le _ _ I). lia.
Qed.

(** The ends of the decay. *)
Lemma ends_node i ds : ds <> [] -> ends (Node i ds) = flat_map ends ds. Proof. destruct ds; [congruence|reflexivity]. Qed.
Lemma quiet_ends s : forall x, quiet s x -> ~ In s (ends x).
Proof.
  induction x as [i ds IH] using tree_ind2. intros (H1 & H2) I. destruct ds as [|d ds].
  - destruct I as [E|[]]. apply H1. now split.
  - rewrite ends_node in I by discriminate. apply in_flat_map in I as (y & Iy & I). rewrite Forall_forall in IH. apply (IH y Iy); [|exact I]. split.
    + intros [N D]. apply H2. now apply (below_here s i _ y).
    + intro B. apply H2. now apply (below_deep s i _ y).
Qed.
Lemma replaced_ends p t t' : replaced p t t' -> exists l r, ends t = l ++ name (item_of p) :: r /\ ends t' = l ++ ends p ++ r /\ ~ In (name (item_of p)) l.
Proof.
  assert (Q : forall l, Forall (quiet (name (item_of p))) l -> ~ In (name (item_of p)) (flat_map ends l)).
  { intros l F I. apply in_flat_map in I as (y & Iy & I). rewrite Forall_forall in F. exact (quiet_ends _ y (F y Iy) I). }
  induction 1 as [i l d r F [Hn Hd]|i l d d' r F _ _ (a & b & E & E' & NI)].
  - exists (flat_map ends l), (flat_map ends r). rewrite !ends_node by (destruct l; discriminate). rewrite !flat_map_app. cbn. split; [|split; [reflexivity|now apply Q]].
    destruct d as [j ds]. cbn in Hn, Hd. subst ds. cbn. now rewrite Hn.
  - exists (flat_map ends l ++ a), (b ++ flat_map ends r). rewrite !ends_node by (destruct l; discriminate). rewrite !flat_map_app. cbn. rewrite E, E'. repeat (rewrite <- app_assoc; cbn [app]). split; [reflexivity|]. split; [reflexivity|].
    rewrite in_app_iff. intros [I|I]; [now apply (Q l F)|contradiction].
Qed.
