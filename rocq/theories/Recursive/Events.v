From Coq Require Import Reals List Lia Lra Permutation.
From Verif.Common Require Import Prelude Writes.
From Verif.Kinematics Require Import Model Spec Proofs.
From Verif.Recursive Require Import Model Spec Proofs.
Import ListNotations.
Local Open Scope R_scope.

Definition speed (p : p4) : R := mag (vect p) / en p.
(** The momenta of the final states, in the rest frame of the mother. *)
Fixpoint lab (nd : node) (d : drawn) : list p4 :=
  match nd, d with
  | Node _ _ _ ds, Drawn p sub =>
      match ds with
      | [] => [p]
      | _ => map (boost1 (vect p) (speed p))
               ((fix go (ds : list node) (sub : list drawn) : list p4 := match ds, sub with d :: r, e :: r' => lab d e ++ go r r' | _, _ => [] end) ds sub)
      end
  end.
Definition labs : list node -> list drawn -> list p4 :=
  fix go (ds : list node) (sub : list drawn) : list p4 := match ds, sub with d :: r, e :: r' => lab d e ++ go r r' | _, _ => [] end.

Lemma p4_eq p q : vect p = vect q -> en p = en q -> p = q.
Proof. destruct p, q. cbn. intros -> ->. reflexivity. Qed.
Lemma add4_zero p : add4 p zero4 = p.
Proof. destruct p as [[a b c] e]. unfold add4, zero4, add3. cbn. f_equal; [f_equal; ring|ring]. Qed.
Lemma add4_zero_l p : add4 zero4 p = p.
Proof. destruct p as [[a b c] e]. unfold add4, zero4, add3. cbn. f_equal; [f_equal; ring|ring]. Qed.
Lemma add4_assoc p q r : add4 (add4 p q) r = add4 p (add4 q r).
Proof. unfold add4, add3. cbn. f_equal; [f_equal; ring|ring]. Qed.
Lemma add4_comm p q : add4 p q = add4 q p.
Proof. unfold add4, add3. cbn. f_equal; [f_equal; ring|ring]. Qed.
Lemma total_app l k : total (l ++ k) = add4 (total l) (total k).
Proof. induction l as [|p l IH]; cbn [total app]; [symmetry; apply add4_zero_l|]. now rewrite IH, add4_assoc. Qed.
Lemma total_perm l k : Permutation l k -> total l = total k.
Proof.
  induction 1 as [|x l k _ IH|x y l|l k j _ IH1 _ IH2]; cbn [total]; [reflexivity|now rewrite IH| |congruence]. rewrite <- !add4_assoc. f_equal. apply add4_comm.
Qed.
Definition linear (f : p4 -> p4) : Prop := f zero4 = zero4 /\ (forall p q, f (add4 p q) = add4 (f p) (f q)) /\ forall p q, dot (f p) (f q) = dot p q.
Lemma total_map f l : linear f -> total (map f l) = f (total l).
Proof. intros (Z & A & _). induction l as [|p l IH]; cbn [map total]; [symmetry; exact Z|]. now rewrite IH, A. Qed.
Lemma null_dot (a : v3) : ~ null a -> dot3 a a <> 0.
Proof. intros N E. apply N. now apply dot3_zero. Qed.
Lemma speed_ok p m : dot p p = m * m -> 0 < en p -> 0 < m -> speed p * speed p < 1.
Proof.
  intros D E M. unfold speed. replace (mag (vect p) / en p * (mag (vect p) / en p)) with (mag (vect p) * mag (vect p) / (en p * en p)) by (field; lra). rewrite mag_sq.
  apply (Rmult_lt_reg_r (en p * en p)); [nra|]. replace (dot3 (vect p) (vect p) / (en p * en p) * (en p * en p)) with (dot3 (vect p) (vect p)) by (field; lra). unfold dot in D. nra.
Qed.
Lemma boost_linear p m : dot p p = m * m -> 0 < en p -> 0 < m -> ~ null (vect p) -> linear (boost1 (vect p) (speed p)).
Proof.
  intros D E M N. apply null_dot in N. pose proof (speed_ok p m D E M) as V. destruct (gam_ok _ V) as [Gp G]. pose proof (dir_unit _ N) as U. split; [|split].
  - rewrite boost1_push by exact N. unfold push, zero4. cbn [vect en]. apply p4_eq; cbn [vect en]; [v3|]. rewrite (dot3_comm (dir _)). unfold dot3. cbn. ring.
  - intros a b. rewrite !boost1_push by exact N. apply push_add.
  - intros a b. rewrite !boost1_push by exact N. now apply push_dot.
Qed.
Lemma boost_rest p m : dot p p = m * m -> 0 < en p -> 0 < m -> ~ null (vect p) -> boost1 (vect p) (speed p) (P4 (V3 0 0 0) m) = p.
Proof.
  intros D E M N. apply null_dot in N. pose proof (speed_ok p m D E M) as V. destruct (gam_ok _ V) as [Gp G]. rewrite boost1_push by exact N. unfold push. cbn [vect en].
  set (g := gam (speed p)) in *. assert (Gm : g * m = en p).
  { assert (S2 : speed p * speed p * (en p * en p) = dot3 (vect p) (vect p)).
    { unfold speed. replace (mag (vect p) / en p * (mag (vect p) / en p) * (en p * en p)) with (mag (vect p) * mag (vect p)) by (field; lra). apply mag_sq. }
    assert (Q : g * m * (g * m) = en p * en p). { unfold dot in D. replace (g * m * (g * m)) with (g * g * (m * m)) by ring. rewrite <- D, <- S2. replace (g * g * (en p * en p - speed p * speed p * (en p * en p))) with (g * g * (1 - speed p * speed p) * (en p * en p)) by ring. rewrite G. ring. }
    assert (0 < g * m) by nra. nra. }
  assert (Z : forall u, dot3 u (V3 0 0 0) = 0) by (intro u; unfold dot3; cbn; ring). rewrite Z. apply p4_eq; cbn [vect en].
  - replace ((g - 1) * 0 + g * m * speed p) with (mag (vect p)) by (rewrite Gm; unfold speed; field; lra). pose proof (norm_pos _ N) as Np. unfold dir, mag. set (s := sqrt (dot3 (vect p) (vect p))) in *. v3; field; lra.
  - rewrite Rmult_0_r, Rplus_0_r. exact Gm.
Qed.
Lemma possible_node n m s ds p sub : ds <> [] -> possible (Node n m s ds) (Drawn p sub) ->
  dot p p = m * m /\ 0 < en p /\ 0 < m /\ ~ null (vect p) /\ total (map momentum_of sub) = P4 (V3 0 0 0) m /\ all_possible ds sub.
Proof. intros N H. destruct ds as [|d ds]; [congruence|]. destruct H as (A & B & _ & C & D & E & F). repeat split; assumption. Qed.
Lemma lab_node n m s ds p sub : ds <> [] -> lab (Node n m s ds) (Drawn p sub) = map (boost1 (vect p) (speed p)) (labs ds sub).
Proof. intro N. destruct ds; [congruence|reflexivity]. Qed.
Lemma leaves_node n m s ds : ds <> [] -> leaves (Node n m s ds) = flat_map leaves ds.
Proof. intro N. destruct ds; [congruence|reflexivity]. Qed.
Lemma generate1_node n nm m s ds p sub rt : ds <> [] -> generate1 n (Node nm m s ds) (Drawn p sub) rt =
  bind (generate n ds sub (repeat zero4 n)) (fun tmp =>
             if Req_EM_T (en p) 0 then Throw
             else if Req_EM_T (mag (vect p)) 0 then Throw
             else if Rlt_dec (speed p * speed p) 1 then Ok (plus rt (map (boost1 (vect p) (speed p)) tmp)) else Throw).
Proof. intro N. destruct ds; [congruence|reflexivity]. Qed.

(** The total momentum of what a particle decays to is its momentum. *)
Lemma lab_total : forall nd d, possible nd d -> total (lab nd d) = momentum_of d.
Proof.
  apply (node_ind' (fun nd => forall d, possible nd d -> total (lab nd d) = momentum_of d)). intros nm m s ds IH [p sub] H. destruct ds as [|d0 ds0]; [cbn [lab total momentum_of]; apply add4_zero|].
  set (ds := d0 :: ds0) in *. assert (N : ds <> []) by discriminate. destruct (possible_node _ _ _ _ _ _ N H) as (D & E & M & Nl & T & P). rewrite lab_node by exact N.
  rewrite (total_map _ _ (boost_linear p m D E M Nl)). assert (Q : total (labs ds sub) = total (map momentum_of sub)).
  { clear - IH P. revert sub P. induction IH as [|d ds Hd _ IHds]; intros [|e sub] P; try destruct P as [P1 P2]; try reflexivity; try contradiction. cbn [labs map total]. rewrite total_app, Hd by exact P1. f_equal. now apply IHds. }
  rewrite Q, T. now apply (boost_rest p m).
Qed.
Lemma lab_length : forall nd d, possible nd d -> List.length (lab nd d) = List.length (leaves nd).
Proof.
  apply (node_ind' (fun nd => forall d, possible nd d -> List.length (lab nd d) = List.length (leaves nd))). intros nm m s ds IH [p sub] H. destruct ds as [|d0 ds0]; [reflexivity|].
  set (ds := d0 :: ds0) in *. assert (N : ds <> []) by discriminate. destruct (possible_node _ _ _ _ _ _ N H) as (_ & _ & _ & _ & _ & P). rewrite lab_node, leaves_node, map_length by exact N.
  clear - IH P. revert sub P. induction IH as [|d ds Hd _ IHds]; intros [|e sub] P; try destruct P as [P1 P2]; try reflexivity; try contradiction. cbn [labs flat_map]. rewrite !app_length, Hd by exact P1. f_equal. now apply IHds.
Qed.

(** ** Writing *)
Definition at_places (evt : list p4) (ks : list nat) (ps : list p4) : Prop := Forall2 (fun k p => nth_error evt k = Some p) ks ps.
Lemma nth_plus a : forall b k, List.length a = List.length b -> nth_error (plus a b) k = match nth_error a k, nth_error b k with Some p, Some q => Some (add4 p q) | _, _ => None end.
Proof. induction a as [|p a IH]; intros [|q b] [|k] L; try discriminate; try reflexivity. cbn. apply IH. cbn in L. lia. Qed.
Lemma plus_length a : forall b, List.length a = List.length b -> List.length (plus a b) = List.length a.
Proof. intros b L. unfold plus. rewrite map_length, combine_length. lia. Qed.
Lemma nth_zero n k : (k < n)%nat -> nth_error (repeat zero4 n) k = Some zero4.
Proof. revert k. induction n as [|n IH]; intros [|k] H; [lia|lia|reflexivity|]. cbn. apply IH. lia. Qed.
Definition writes1 (n : nat) (nd : node) : Prop := forall d rt ks, possible nd d -> map snd (leaves nd) = map Some ks -> NoDup ks -> List.length rt = n -> (forall k, In k ks -> nth_error rt k = Some zero4) ->
  exists evt, generate1 n nd d rt = Ok evt /\ List.length evt = n /\ at_places evt ks (lab nd d) /\ forall k, ~ In k ks -> nth_error evt k = nth_error rt k.
Lemma at_places_in evt ks ps k : at_places evt ks ps -> In k ks -> exists p, In p ps /\ nth_error evt k = Some p.
Proof. induction 1 as [|a b u v H _ IH]; intros I; [destruct I|]. destruct I as [<- | I]; [exists b; split; [now left|exact H]|]. destruct (IH I) as (p & A & B). exists p. split; [now right|exact B]. Qed.
Lemma nodup_parts {A} (a b : list A) : NoDup (a ++ b) -> NoDup a /\ NoDup b /\ forall x, In x a -> ~ In x b.
Proof.
  induction a as [|x a IH]; cbn; intro H; [split; [constructor|split; [exact H|intros x []]]|]. apply NoDup_cons_iff in H as [Nx H]. destruct (IH H) as (A1 & A2 & A3). split; [constructor; [|exact A1]; intro I; apply Nx; apply in_or_app; now left|].
  split; [exact A2|]. intros y [<- | I]; [intro I; apply Nx; apply in_or_app; now right|now apply A3].
Qed.
Lemma at_places_keep evt evt' ks ps : at_places evt ks ps -> (forall k, In k ks -> nth_error evt' k = nth_error evt k) -> at_places evt' ks ps.
Proof. induction 1 as [|a b u v H _ IH]; intros E; constructor; [rewrite E by (now left); exact H|]. apply IH. intros k I. apply E. now right. Qed.
Lemma writes_list n ds : Forall (writes1 n) ds -> forall sub rt ks, all_possible ds sub -> map snd (flat_map leaves ds) = map Some ks -> NoDup ks -> List.length rt = n -> (forall k, In k ks -> nth_error rt k = Some zero4) ->
  exists evt, generate n ds sub rt = Ok evt /\ List.length evt = n /\ at_places evt ks (labs ds sub) /\ forall k, ~ In k ks -> nth_error evt k = nth_error rt k.
Proof.
  induction 1 as [|d ds Hd _ IH]; intros [|e sub] rt ks P K Nd L Z; try contradiction.
  - destruct ks; [|discriminate]. exists rt. repeat split; try assumption. constructor.
  - destruct P as [P1 P2]. cbn [flat_map] in K. rewrite map_app in K. symmetry in K. apply map_eq_app in K as (k1 & k2 & -> & K1 & K2). destruct (nodup_parts _ _ Nd) as (N1 & N2 & N12).
    destruct (Hd e rt k1) as (evt1 & E1 & L1 & A1 & O1); [exact P1|congruence|exact N1|exact L|intros k I; apply Z; apply in_or_app; now left|].
    destruct (IH sub evt1 k2) as (evt & E & L2 & A2 & O2); [exact P2|congruence|exact N2|exact L1|intros k I; rewrite O1 by (intro J; exact (N12 k J I)); apply Z; apply in_or_app; now right|].
    exists evt. cbn [generate labs]. rewrite E1. cbn [bind]. split; [exact E|]. split; [exact L2|]. split.
    + apply Forall2_app; [|exact A2]. apply (at_places_keep evt1); [exact A1|]. intros k I. apply O2. now apply N12.
    + intros k I. rewrite O2, O1; [reflexivity| |]; intro J; apply I; apply in_or_app; [now left|now right].
Qed.
Lemma writes_all n : forall nd, writes1 n nd.
Proof.
  apply node_ind'. intros nm m s ds IH [p sub] rt ks H K Nd L Z. destruct ds as [|d0 ds0].
  - cbn [leaves map snd] in K. destruct ks as [|k [|k' ks]]; try discriminate. cbn in K. injection K as ->. specialize (Z k (or_introl eq_refl)).
    assert (Lk : (k < List.length rt)%nat) by (apply nth_error_Some; congruence). destruct (set_at_Some k p rt Lk) as (evt & E & L' & O). exists evt. cbn [generate1]. rewrite E.
    split; [reflexivity|]. split; [congruence|]. split; [constructor; [rewrite O, Nat.eqb_refl; reflexivity|constructor]|]. intros j I. rewrite O. destruct (Nat.eqb_spec j k) as [-> |]; [exfalso; apply I; now left|reflexivity].
  - set (ds := d0 :: ds0) in *. assert (N : ds <> []) by discriminate. destruct (possible_node _ _ _ _ _ _ N H) as (D & E & M & Nl & T & P). rewrite leaves_node in K by exact N.
    assert (Lk : forall k, In k ks -> (k < n)%nat) by (intros k I; rewrite <- L; apply nth_error_Some; rewrite (Z k I); discriminate).
    destruct (writes_list n ds IH sub (repeat zero4 n) ks P K Nd (repeat_length _ _)) as (tmp & Et & Lt & At & Ot); [intros k I; now apply nth_zero, Lk|].
    rewrite generate1_node by exact N. rewrite Et. cbn [bind]. destruct (Req_EM_T (en p) 0); [lra|]. pose proof (mag_pos _ (null_dot _ Nl)) as Mp. destruct (Req_EM_T (mag (vect p)) 0); [lra|].
    destruct (Rlt_dec (speed p * speed p) 1) as [_|F]; [|destruct F; now apply (speed_ok p m)]. pose proof (boost_linear p m D E M Nl) as Lin. set (f := boost1 (vect p) (speed p)) in *.
    assert (Lf : List.length rt = List.length (map f tmp)) by (rewrite map_length; congruence).
    eexists. split; [reflexivity|]. split; [rewrite plus_length by exact Lf; exact L|]. split.
    + rewrite lab_node by exact N. fold f. assert (At' : at_places (map f tmp) ks (map f (labs ds sub))).
      { clear - At. induction At as [|a b u v X _ IHa]; constructor; [|exact IHa]. now rewrite nth_error_map, X. }
      clear - At' Z Lf. induction At' as [|a b u v X _ IHa]; constructor; [|apply IHa; intros k I; apply Z; now right].
      rewrite nth_plus by exact Lf. rewrite X, (Z a) by (now left). now rewrite add4_zero_l.
    + intros k I. rewrite nth_plus by exact Lf. rewrite nth_error_map, (Ot k I). destruct (nth_error rt k) as [q|] eqn:Eq; [|reflexivity].
      assert (k < n)%nat by (rewrite <- L; apply nth_error_Some; congruence). rewrite nth_zero by assumption. cbn [option_map]. destruct Lin as [-> _]. now rewrite add4_zero.
Qed.

(** ** Masses *)
Lemma leaves_at evt l ks ps : map snd l = map Some ks -> at_places evt ks ps -> Forall2 (fun (l : str * option nat) p => exists i, snd l = Some i /\ nth_error evt i = Some p) l ps.
Proof.
  intros E A. revert l E. induction A as [|a b u v X _ IH]; intros [|[nm s] l] E; try discriminate; constructor; [|apply IH; now injection E]. cbn in E. injection E as -> _. exists a. now split.
Qed.
Lemma masses_all : forall nd d f ks evt, linear f -> possible nd d -> map snd (leaves nd) = map Some ks -> at_places evt ks (map f (lab nd d)) -> masses_right evt nd.
Proof.
  apply (node_ind' (fun nd => forall d f ks evt, linear f -> possible nd d -> map snd (leaves nd) = map Some ks -> at_places evt ks (map f (lab nd d)) -> masses_right evt nd)).
  intros nm m s ds IH [p sub] f ks evt Lin H K A. cbn [masses_right]. assert (D : dot p p = m * m) by (destruct ds; apply H). split.
  - exists (map f (lab (Node nm m s ds) (Drawn p sub))). split; [now apply (leaves_at evt _ ks)|]. rewrite (total_map f _ Lin), (lab_total _ _ H). destruct Lin as (_ & _ & I). now rewrite I.
  - destruct ds as [|d0 ds0]; [exact I|]. set (ds := d0 :: ds0) in *. assert (N : ds <> []) by discriminate. destruct (possible_node _ _ _ _ _ _ N H) as (_ & E & M & Nl & T & P).
    rewrite leaves_node in K by exact N. rewrite lab_node, map_map in A by exact N. pose proof (boost_linear p m D E M Nl) as Lb. set (g := boost1 (vect p) (speed p)) in *.
    assert (Lin' : linear (fun q => f (g q))). { destruct Lin as (F1 & F2 & F3), Lb as (G1 & G2 & G3). split; [now rewrite G1|]. split; [intros; now rewrite G2, F2|intros; now rewrite F3]. }
    clearbody ds. clear - IH P K A Lin'. set (h := fun q => f (g q)) in *. clearbody h. revert sub ks P K A. induction IH as [|d ds Hd _ IHds]; intros [|e sub] ks P K A; cbn [fold_right]; try contradiction; [exact I|].
    destruct P as [P1 P2]. cbn [flat_map labs] in *. rewrite map_app in K. symmetry in K. apply map_eq_app in K as (k1 & k2 & -> & K1 & K2). rewrite map_app in A.
    assert (L1 : List.length k1 = List.length (map h (lab d e))). { rewrite map_length, (lab_length _ _ P1), <- (map_length snd), <- K1, map_length. reflexivity. }
    apply Forall2_app_inv_l in A as (a1 & a2 & A1 & A2 & Eq). assert (La : List.length k1 = List.length a1) by (clear - A1; induction A1; cbn; congruence).
    apply app_eq_app in Eq as (w & [[X Y]|[X Y]]).
    + assert (w = []) by (apply length_zero_iff_nil; rewrite X, app_length in L1; lia). subst w. rewrite app_nil_r in X. cbn in Y. subst a1 a2. split; [apply (Hd e h k1); congruence || assumption|]. apply (IHds sub k2); congruence || assumption.
    + assert (w = []) by (apply length_zero_iff_nil; rewrite X, app_length in La; lia). subst w. rewrite app_nil_r in X. cbn in Y. subst a1 a2. split; [apply (Hd e h k1); congruence || assumption|]. apply (IHds sub k2); congruence || assumption.
Qed.
Lemma masses_list ds : forall sub ks evt, all_possible ds sub -> map snd (flat_map leaves ds) = map Some ks -> at_places evt ks (labs ds sub) -> Forall (masses_right evt) ds.
Proof.
  induction ds as [|d ds IH]; intros [|e sub] ks evt P K A; try contradiction; [constructor|]. destruct P as [P1 P2]. cbn [flat_map labs] in *. rewrite map_app in K. symmetry in K. apply map_eq_app in K as (k1 & k2 & -> & K1 & K2).
  assert (L1 : List.length k1 = List.length (lab d e)). { rewrite (lab_length _ _ P1), <- (map_length snd), <- K1, map_length. reflexivity. }
  apply Forall2_app_inv_l in A as (a1 & a2 & A1 & A2 & Eq). assert (La : List.length k1 = List.length a1) by (clear - A1; induction A1; cbn; congruence).
  assert (Q : a1 = lab d e /\ a2 = labs ds sub).
  { apply app_eq_app in Eq as (w & [[X Y]|[X Y]]); (assert (w = []) by (apply length_zero_iff_nil; rewrite X, app_length in *; lia)); subst w; rewrite app_nil_r in X; cbn in Y; subst; now split. }
  destruct Q as [-> ->]. constructor; [|apply (IH sub k2); congruence || assumption].
  apply (masses_all d e (fun q => q) k1); [split; [reflexivity|split; reflexivity]|exact P1|congruence|]. now rewrite map_id.
Qed.
Lemma labs_total ds : forall sub, all_possible ds sub -> total (labs ds sub) = total (map momentum_of sub).
Proof. induction ds as [|d ds IH]; intros [|e sub] P; try contradiction; [reflexivity|]. destruct P as [P1 P2]. cbn [labs map total]. rewrite total_app, (lab_total _ _ P1). f_equal. now apply IH. Qed.
Lemma total_places evt ks ps : Permutation ks (seq 0 (List.length evt)) -> at_places evt ks ps -> total evt = total ps.
Proof.
  intros Pm A. set (g := fun k => match nth_error evt k with Some p => p | None => zero4 end). assert (E : ps = map g ks).
  { clear - A. induction A as [|a b u v X _ IH]; [reflexivity|]. cbn. f_equal; [|exact IH]. unfold g. now rewrite X. }
  rewrite E. rewrite (total_perm _ _ (Permutation_map g Pm)). f_equal. unfold g. clear. induction evt as [|p evt IH]; [reflexivity|]. cbn [List.length seq map nth_error]. f_equal. rewrite <- seq_shift, map_map. exact IH.
Qed.
Lemma event_ok types c draws M : Permutation (final_states c) types -> all_possible (construct types c) draws -> total (map momentum_of draws) = P4 (V3 0 0 0) M ->
  exists evt, makeEvent types (construct types c) draws = Ok evt /\ List.length evt = List.length types /\ total evt = P4 (V3 0 0 0) M /\ Forall (masses_right evt) (construct types c).
Proof.
  intros P A T. destruct (construct_places types c P) as (ks & E & Pk & F). assert (K : map snd (flat_map leaves (construct types c)) = map Some ks).
  { rewrite E. clear - F. induction F as [|a b u v _ _ IH]; [reflexivity|]. cbn. now rewrite IH. }
  assert (Nd : NoDup ks) by (apply (Permutation_NoDup (Permutation_sym Pk)), seq_NoDup).
  destruct (writes_list (List.length types) (construct types c)) with (sub := draws) (rt := repeat zero4 (List.length types)) (ks := ks) as (evt & G & L & At & _); [apply Forall_forall; intros; apply writes_all|exact A|exact K|exact Nd|apply repeat_length| |].
  - intros k I. apply nth_zero. apply (Permutation_in _ Pk) in I. apply in_seq in I. lia.
  - exists evt. split; [exact G|]. split; [exact L|]. split; [|now apply (masses_list _ draws ks)]. rewrite (total_places evt ks (labs (construct types c) draws)); [|now rewrite L|exact At]. rewrite labs_total by exact A. exact T.
Qed.
Lemma erase_assign1 types : forall n used, erase (fst (assign1 types n used)) = erase n.
Proof.
  apply (node_ind' (fun n => forall used, erase (fst (assign1 types n used)) = erase n)). intros nm m s ds IH used. destruct ds as [|d0 ds0]; [cbn [assign1]; destruct (first_free used nm types 0); reflexivity|].
  set (ds := d0 :: ds0) in *. rewrite assign1_node by discriminate. assert (Q : map erase (fst (assign types ds used)) = map erase ds).
  { clearbody ds. clear - IH. revert used. induction IH as [|d ds Hd _ IHds]; intro used; [reflexivity|]. cbn [assign]. specialize (Hd used). destruct (assign1 types d used) as [d' u]. specialize (IHds u). destruct (assign types ds u) as [r' u']. cbn in *. congruence. }
  destruct (assign types ds used) as [ds' u]. cbn in *. now rewrite Q.
Qed.
Lemma erase_assign types ds : forall used, map erase (fst (assign types ds used)) = map erase ds.
Proof.
  induction ds as [|d ds IH]; intro used; [reflexivity|]. cbn [assign]. pose proof (erase_assign1 types d used) as Hd. destruct (assign1 types d used) as [d' u]. specialize (IH u). destruct (assign types ds u) as [r' u']. cbn in *. congruence.
Qed.
Lemma erase_construct types : forall c, map erase (construct types c) = daughters c.
Proof.
  apply chain_ind'. intros n m ds IH. cbn [construct daughters]. rewrite erase_assign, map_map. induction IH as [|[n' m' ds'] ds Hd _ IHds]; [reflexivity|]. cbn [map erase daughters] in *. rewrite IHds. f_equal. f_equal. exact Hd.
Qed.
