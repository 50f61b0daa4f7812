From Coq Require Import Ring Permutation.
From Verif.Common Require Import Prelude.
From Verif.Tensor Require Import Model Spec Proofs.
Local Open Scope nat_scope.

Definition rid (r : nat * nat * bool) : nat := fst (fst r).
Definition rdim (r : nat * nat * bool) : nat := snd (fst r).
Definition memb (l : list nat) (x : nat) : bool := if in_dec Nat.eq_dec x l then true else false.
Lemma memb_true l x : memb l x = true <-> In x l.
Proof. unfold memb. destruct (in_dec Nat.eq_dec x l); split; congruence. Qed.
Lemma memb_false l x : memb l x = false <-> ~ In x l.
Proof. unfold memb. destruct (in_dec Nat.eq_dec x l); split; congruence. Qed.

Fixpoint assigns (f : nat -> nat) (rep : list (nat * nat * bool)) (cc : list nat) : nat -> nat :=
  match rep, cc with r :: rep', k :: cc' => assigns (assign f (rid r) k) rep' cc' | _, _ => f end.

Lemma assigns_agree rep : forall cc f g y, List.length cc = List.length rep -> In y (map rid rep) \/ f y = g y ->
  assigns f rep cc y = assigns g rep cc y.
Proof.
  induction rep as [|r rep IH]; intros [|k cc] f g y L H; try discriminate L; cbn [assigns map In] in *.
  - destruct H as [[]|H]; exact H.
  - apply IH; [injection L; auto|]. unfold assign. destruct (y =? rid r) eqn:E; [now right|].
    apply Nat.eqb_neq in E. destruct H as [[H|H]|H]; [congruence|now left|now right].
Qed.

Lemma set_map (f : nat -> nat) l p x k : NoDup l -> nth_error l p = Some x -> set_nth p k (map f l) = Ok (map (assign f x k) l).
Proof.
  intros N H. destruct (set_nth_ok (map f l) p k) as (l' & E & L & K).
  { rewrite map_length. apply nth_error_Some. congruence. }
  rewrite E. f_equal. apply nth_error_ext. intro j. rewrite K, !nth_error_map.
  destruct (j =? p) eqn:Ej.
  - apply Nat.eqb_eq in Ej. subst j. rewrite H. cbn [option_map]. unfold assign. now rewrite Nat.eqb_refl.
  - apply Nat.eqb_neq in Ej. destruct (nth_error l j) as [y|] eqn:Ey; [|reflexivity]. cbn [option_map]. f_equal.
    unfold assign. destruct (y =? x) eqn:E1; [|reflexivity]. apply Nat.eqb_eq in E1. subst y.
    exfalso. apply Ej. exact (nth_error_nodup _ _ _ _ N Ey H).
Qed.

Definition matches (i1 i2 : list index) (c : contractor) (r : nat * nat * bool) : Prop :=
  nth_error (ids i1) (ci c) = Some (rid r) /\ nth_error (ids i2) (cj c) = Some (rid r) /\ up_down c = snd r.

Lemma contr_rep i1 : forall rest pre d2, List.length rest = List.length d2 ->
  Forall2 (matches i1 (pre ++ rest)) (contractions i1 rest (List.length pre)) (repeated i1 rest d2).
Proof.
  induction rest as [|b rest IH]; intros pre [|d d2] L; try discriminate L; [constructor|].
  cbn [contractions repeated combine flat_map]. fold (repeated i1 rest d2). cbn [fst snd].
  specialize (IH (pre ++ [b]) d2). rewrite app_length in IH. cbn [List.length] in IH.
  replace (List.length pre + 1) with (S (List.length pre)) in IH by lia. rewrite <- app_assoc in IH. cbn [app] in IH.
  specialize (IH ltac:(injection L; auto)).
  rewrite (find_pos_find b i1 0). destruct (find_pos b i1 0) as [[k a]|] eqn:E; cbn [option_map snd].
  - apply find_pos_some in E as (_ & E1 & E2 & _). rewrite Nat.sub_0_r in E1. cbn [app]. constructor; [|exact IH].
    split; [|split]; cbn [ci cj up_down rid fst snd].
    + unfold rid. cbn [fst]. rewrite <- E2. exact (map_nth_error fst k i1 E1).
    + unfold rid, ids. cbn [fst]. apply map_nth_error. rewrite nth_error_app2, Nat.sub_diag by lia. reflexivity.
    + now destruct (snd b), (snd a).
  - cbn [app]. exact IH.
Qed.

Lemma repeated_ids i1 : forall i2 d2, List.length i2 = List.length d2 -> map rid (repeated i1 i2 d2) = filter (memb (ids i1)) (ids i2).
Proof.
  induction i2 as [|b i2 IH]; intros [|d d2] L; try discriminate L; [reflexivity|].
  cbn [repeated combine flat_map ids map filter fst snd]. fold (repeated i1 i2 d2). rewrite (find_pos_find b i1 0).
  destruct (find_pos b i1 0) as [[k a]|] eqn:E; cbn [option_map snd app map].
  - apply find_pos_some in E as (_ & E1 & E2 & _).
    assert (M : memb (ids i1) (fst b) = true).
    { apply memb_true. rewrite <- E2. apply in_map. now apply nth_error_In in E1. }
    rewrite M. unfold rid at 1. cbn [fst]. f_equal. apply IH. injection L; auto.
  - apply find_pos_none in E. apply memb_false in E. rewrite E. apply IH. injection L; auto.
Qed.
Lemma repeated_dims i1 : forall i2 d2 r, In r (repeated i1 i2 d2) -> In (rid r, rdim r) (combine (ids i2) d2).
Proof.
  induction i2 as [|b i2 IH]; intros [|d d2] r H; try destruct H. cbn [repeated combine flat_map fst snd] in H.
  fold (repeated i1 i2 d2) in H. apply in_app_iff in H as [H|H].
  - destruct (find (fun a => fst a =? fst b) i1) as [a|]; [|destruct H]. destruct H as [<-|[]]. now left.
  - right. now apply IH.
Qed.

Lemma same_length_inter l l' : NoDup l -> NoDup l' -> List.length (filter (memb l') l) = List.length (filter (memb l) l').
Proof.
  intros N N'. apply Permutation_length. apply NoDup_Permutation; [now apply NoDup_filter|now apply NoDup_filter|].
  intro x. rewrite !filter_In, !memb_true. tauto.
Qed.
Lemma filter_split {A} (f : A -> bool) l : List.length l = List.length (filter f l) + List.length (filter (fun x => negb (f x)) l).
Proof. induction l as [|x l IH]; [reflexivity|]. cbn [filter List.length]. destruct (f x); cbn [negb List.length]; lia. Qed.

Lemma values_range i d rho : List.length i = List.length d ->
  (forall x e, In (x, e) (combine (ids i) d) -> rho x < e) -> in_range (map rho (ids i)) d.
Proof.
  revert d. induction i as [|a i IH]; intros [|e d] L H; try discriminate L; [constructor|]. cbn [ids map combine] in *. constructor.
  - apply H. now left.
  - apply IH; [injection L; auto|]. intros x e' Hx. apply H. now right.
Qed.

Fixpoint lookup (xs cs : list nat) (y : nat) : nat :=
  match xs, cs with x :: xs', c :: cs' => if y =? x then c else lookup xs' cs' y | _, _ => 0 end.
Lemma lookup_map xs : forall cs, NoDup xs -> List.length xs = List.length cs -> map (lookup xs cs) xs = cs.
Proof.
  induction xs as [|x xs IH]; intros [|c cs] N L; try discriminate L; [reflexivity|]. cbn [map lookup]. rewrite Nat.eqb_refl.
  inversion N as [|? ? N1 N2]; subst. f_equal. transitivity (map (lookup xs cs) xs); [|apply IH; [assumption|injection L; auto]].
  apply map_ext_in. intros y Hy. destruct (y =? x) eqn:E; [|reflexivity]. apply Nat.eqb_eq in E. congruence.
Qed.
Lemma lookup_out xs : forall cs y, ~ In y xs -> lookup xs cs y = 0.
Proof.
  induction xs as [|x xs IH]; intros [|c cs] y H; cbn [lookup In] in *; try reflexivity.
  destruct (y =? x) eqn:E; [apply Nat.eqb_eq in E; exfalso; apply H; left; congruence|]. apply IH. tauto.
Qed.

Lemma range_at rho : forall (l : list (index * nat)) a d, in_range (map rho (ids (map fst l))) (map snd l) -> In (a, d) l -> rho (fst a) < d.
Proof.
  induction l as [|[b e] l IH]; intros a d Q H; [destruct H|]. cbn [map ids fst snd] in Q.
  inversion Q as [|c0 d0 l0 l0' Q1 Q2 Q3 Q4]; subst. destruct H as [H|H]; [injection H as <- <-; exact Q1|]. exact (IH a d Q2 H).
Qed.

Lemma not_in_find a l : match find_pos a l 0 with None => true | Some _ => false end = negb (existsb (fun b => fst b =? fst a) l).
Proof.
  destruct (find_pos a l 0) as [[k b]|] eqn:Ef; symmetry.
  - apply find_pos_some in Ef as (_ & E1 & E2 & _). apply negb_false_iff. apply existsb_exists. exists b.
    split; [now apply nth_error_In in E1|]. now apply Nat.eqb_eq.
  - apply find_pos_none in Ef. apply negb_true_iff. apply Bool.not_true_iff_false. intro Ex. apply Ef.
    apply existsb_exists in Ex as (b & Hb & Eb). apply Nat.eqb_eq in Eb. rewrite <- Eb. now apply in_map.
Qed.

Section Product.
  Variables (V : Type) (v0 v1 : V) (add mul sub : V -> V -> V) (opp : V -> V).
  Hypothesis Vring : ring_theory v0 v1 add mul sub opp eq.
  Add Ring Vr : Vring.
  Notation vsum := (vsum V v0 add).
  Notation metric := (metric V v1 opp).
  Notation einstein := (einstein V v0 v1 add mul opp).
  Notation sum_loop := (sum_loop V v1 add mul opp).
  Notation set_contracted := (set_contracted V v1 mul opp).

  Lemma vsum_ext f g n : (forall i, i < n -> f i = g i) -> vsum f n = vsum g n.
  Proof. induction n as [|n IH]; intro H; cbn [Spec.vsum]; [reflexivity|]. rewrite IH by (intros i Hi; apply H; lia). now rewrite (H n) by lia. Qed.
  Lemma vsum_first f n : vsum f (S n) = add (f 0) (vsum (fun i => f (S i)) n).
  Proof. induction n as [|n IH]; [cbn; ring|]. cbn [Spec.vsum] in *. rewrite IH. ring. Qed.
  Lemma vsum_plus f a b : vsum f (a + b) = add (vsum f a) (vsum (fun i => f (a + i)) b).
  Proof.
    induction b as [|b IH]; [rewrite Nat.add_0_r; cbn; ring|]. rewrite Nat.add_succ_r. cbn [Spec.vsum]. rewrite IH. ring.
  Qed.
  Lemma vsum_blocks f d P : vsum f (d * P) = vsum (fun k => vsum (fun r => f (k * P + r)) P) d.
  Proof.
    induction d as [|d IH]; [reflexivity|]. cbn [Spec.vsum]. rewrite <- IH. replace (S d * P) with (d * P + P) by lia. apply vsum_plus.
  Qed.
  Lemma vsum_scale s f n : vsum (fun i => mul s (f i)) n = mul s (vsum f n).
  Proof. induction n as [|n IH]; cbn [Spec.vsum]; [ring|]. rewrite IH. ring. Qed.

  Definition co_of (i : nat) (dim : list nat) : list nat := match index_to_coordinates i dim with Ok l => l | _ => [] end.
  Fixpoint sgns (rep : list (nat * nat * bool)) (cc : list nat) (s : V) : V :=
    match rep, cc with r :: rep', k :: cc' => sgns rep' cc' (mul s (metric (snd r) k)) | _, _ => s end.

  Lemma nested A B : forall rep rho s,
    vsum (fun i => mul (mul (sgns rep (co_of i (map rdim rep)) s) (A (assigns rho rep (co_of i (map rdim rep)))))
                       (B (assigns rho rep (co_of i (map rdim rep))))) (prodn (map rdim rep)) =
    mul s (einstein rep rho (fun r => mul (A r) (B r))).
  Proof.
    induction rep as [|[[x d] ud] rep IH]; intros rho s.
    - cbn. ring.
    - cbn [map Spec.einstein]. unfold rdim at 7. cbn [fst snd]. change (prodn (d :: map rdim rep)) with (d * prodn (map rdim rep)).
      rewrite vsum_blocks. rewrite <- vsum_scale. apply vsum_ext. intros k Hk.
      specialize (IH (assign rho x k) (mul s (metric ud k))).
      replace (mul s (mul (metric ud k) (einstein rep (assign rho x k) (fun r => mul (A r) (B r)))))
        with (mul (mul s (metric ud k)) (einstein rep (assign rho x k) (fun r => mul (A r) (B r)))) by ring.
      rewrite <- IH. apply vsum_ext. intros r Hr.
      assert (E : co_of (k * prodn (map rdim rep) + r) (rdim (x, d, ud) :: map rdim rep) = k :: co_of r (map rdim rep)).
      { unfold co_of. rewrite i2c_cons by assumption. destruct (i2c_ok _ _ Hr) as (co & _ & -> & _). reflexivity. }
      rewrite E. reflexivity.
  Qed.

  Lemma set_contracted_ok i1 i2 : NoDup (ids i1) -> NoDup (ids i2) -> forall cs rep, Forall2 (matches i1 i2) cs rep ->
    forall cc f g s, List.length cc = List.length rep ->
    set_contracted cs cc (map f (ids i1)) (map g (ids i2)) s =
      Ok (map (assigns f rep cc) (ids i1), map (assigns g rep cc) (ids i2), sgns rep cc s).
  Proof.
    intros N1 N2 cs rep H. induction H as [|c r cs rep (M1 & M2 & M3) H IH]; intros [|k cc] f g s L; try discriminate L; [reflexivity|].
    cbn [Model.set_contracted assigns sgns]. rewrite (set_map f _ _ _ k N1 M1). cbn [bind]. rewrite (set_map g _ _ _ k N2 M2). cbn [bind].
    rewrite IH by (injection L; auto). do 3 f_equal. unfold Spec.metric, sgn. rewrite M3.
    destruct (snd r), (k =? 3); reflexivity.
  Qed.

  Section Loop.
    Variables (p1 p2 : proxy V) (T1 T2 : list nat -> V).
    Hypothesis C1 : components V p1 T1.
    Hypothesis C2 : components V p2 T2.
    Hypothesis SD : same_dims V p1 p2.
    Let i1 := idx p1. Let i2 := idx p2. Let d1 := dims (ten p1). Let d2 := dims (ten p2).
    Let cs := contractions i1 i2 0.
    Let rep := repeated i1 i2 d2.
    Let cdim := map rdim rep.
    Let F (r : nat -> nat) : V := mul (T1 (map r (ids i1))) (T2 (map r (ids i2))).

    Lemma L1 : List.length i1 = List.length d1. Proof. apply C1. Qed.
    Lemma L2 : List.length i2 = List.length d2. Proof. apply C2. Qed.
    Lemma N1 : NoDup (ids i1). Proof. apply C1. Qed.
    Lemma N2 : NoDup (ids i2). Proof. apply C2. Qed.
    Lemma cs_rep : Forall2 (matches i1 i2) cs rep.
    Proof. exact (contr_rep i1 i2 [] d2 L2). Qed.
    Lemma rep_ids : map rid rep = filter (memb (ids i1)) (ids i2).
    Proof. apply repeated_ids, L2. Qed.
    Lemma combine_nodup (xs ds : list nat) x d e : NoDup xs -> In (x, d) (combine xs ds) -> In (x, e) (combine xs ds) -> d = e.
    Proof.
      revert ds. induction xs as [|y xs IH]; intros [|c ds] N H H'; try destruct H; try destruct H'; cbn [combine] in *.
      - congruence.
      - injection H as -> ->. apply in_combine_l in H0. inversion N. contradiction.
      - injection H0 as -> ->. apply in_combine_l in H. inversion N. contradiction.
      - inversion N; subst. now apply (IH ds).
    Qed.
    (** A repeated index has the dimension of the sum on both sides. *)
    Lemma rep_dims1 r d : In r rep -> In (rid r, d) (combine (ids i1) d1) -> d = rdim r.
    Proof. intros H H'. apply repeated_dims in H. exact (SD _ _ _ H' H). Qed.
    Lemma rep_dims2 r d : In r rep -> In (rid r, d) (combine (ids i2) d2) -> d = rdim r.
    Proof. intros H H'. apply repeated_dims in H. exact (combine_nodup _ _ _ _ _ N2 H' H). Qed.

    Lemma values_assigns i d : forall rp cc rho, (forall r, In r rp -> forall e, In (rid r, e) (combine (ids i) d) -> e = rdim r) ->
      in_range cc (map rdim rp) ->
      (forall x e, In (x, e) (combine (ids i) d) -> rho x < e) ->
      forall x e, In (x, e) (combine (ids i) d) -> assigns rho rp cc x < e.
    Proof.
      induction rp as [|r rp IH]; intros cc rho Hd Hr Hv x e Hx.
      - now apply Hv.
      - cbn [map] in Hr. inversion Hr as [|k dd cc' ds Hk Hr']; subst. cbn [assigns].
        apply (IH cc' (assign rho (rid r) k)); [intros r' H'; apply Hd; now right|assumption| |assumption].
        intros y e' Hy. unfold assign. destruct (y =? rid r) eqn:E; [|now apply Hv].
        apply Nat.eqb_eq in E. subst y. rewrite (Hd r (or_introl eq_refl) e' Hy). assumption.
    Qed.

    Lemma sum_loop_ok rho : values V p1 rho -> values V p2 rho ->
      forall n m f g acc, m + n <= prodn cdim ->
      (forall x, In x (ids i1) -> ~ In x (map rid rep) -> f x = rho x) ->
      (forall x, In x (ids i2) -> ~ In x (map rid rep) -> g x = rho x) ->
      sum_loop (ten p1) (ten p2) cs cdim m n (map f (ids i1)) (map g (ids i2)) acc =
      Ok (add acc (vsum (fun r => let cc := co_of (m + r) cdim in
            mul (mul (sgns rep cc v1) (T1 (map (assigns rho rep cc) (ids i1)))) (T2 (map (assigns rho rep cc) (ids i2)))) n)).
    Proof.
      intros V1 V2. induction n as [|n IH]; intros m f g acc Hm Hf Hg.
      - cbn. f_equal. ring.
      - cbn [Model.sum_loop]. destruct (i2c_ok cdim m) as (cc & R & I & _); [lia|]. rewrite I. cbn [bind].
        assert (Lc : List.length cc = List.length rep) by (apply in_range_length in R; unfold cdim in R; rewrite map_length in R; exact R).
        rewrite (set_contracted_ok i1 i2 N1 N2 cs rep cs_rep cc f g v1 Lc). cbn [bind].
        assert (E1 : map (assigns f rep cc) (ids i1) = map (assigns rho rep cc) (ids i1)).
        { apply map_ext_in. intros x Hx. apply assigns_agree; [assumption|].
          destruct (in_dec Nat.eq_dec x (map rid rep)); [now left|right; now apply Hf]. }
        assert (E2 : map (assigns g rep cc) (ids i2) = map (assigns rho rep cc) (ids i2)).
        { apply map_ext_in. intros x Hx. apply assigns_agree; [assumption|].
          destruct (in_dec Nat.eq_dec x (map rid rep)); [now left|right; now apply Hg]. }
        destruct C1 as (_ & _ & _ & A1). destruct C2 as (_ & _ & _ & A2).
        rewrite A1, A2.
        2:{ rewrite E2. apply values_range; [exact L2|]. apply values_assigns; [intros r Hr e; now apply rep_dims2|exact R|exact V2]. }
        2:{ rewrite E1. apply values_range; [exact L1|]. apply values_assigns; [intros r Hr e; now apply rep_dims1|exact R|exact V1]. }
        cbn [bind]. rewrite IH.
        + f_equal. rewrite vsum_first. cbv zeta. rewrite Nat.add_0_r. unfold co_of at 4 5 6. rewrite I, E1, E2.
          match goal with |- add (add acc ?a) ?b = add acc (add ?a ?c) => replace b with c; [ring|] end.
          apply vsum_ext. intros i _. replace (m + S i) with (S m + i) by lia. reflexivity.
        + lia.
        + intros x Hx Hn. rewrite <- (Hf x Hx Hn). clear - Lc Hn. revert cc f Lc. induction rep as [|r rp IHr]; intros [|k cc] f Lc; try discriminate Lc; [reflexivity|].
          cbn [assigns map In] in *. rewrite IHr; [|tauto|injection Lc; auto]. unfold assign. destruct (x =? rid r) eqn:E; [|reflexivity].
          apply Nat.eqb_eq in E. exfalso. apply Hn. left. congruence.
        + intros x Hx Hn. rewrite <- (Hg x Hx Hn). clear - Lc Hn. revert cc g Lc. induction rep as [|r rp IHr]; intros [|k cc] g Lc; try discriminate Lc; [reflexivity|].
          cbn [assigns map In] in *. rewrite IHr; [|tauto|injection Lc; auto]. unfold assign. destruct (x =? rid r) eqn:E; [|reflexivity].
          apply Nat.eqb_eq in E. exfalso. apply Hn. left. congruence.
    Qed.

    Let f1 := free1 i1 i2 d1. Let f2 := free2 i1 i2 d2. Let fr := f1 ++ f2.
    Lemma filter_combine (t : list index) (test : index -> bool) : forall (i : list index) (d : list nat), List.length i = List.length d ->
      map fst (filter (fun p => test (fst p)) (combine i d)) = filter test i.
    Proof.
      induction i as [|a i IH]; intros [|e d] L; try discriminate L; [reflexivity|]. cbn [combine filter fst].
      destruct (test a); cbn [map fst]; rewrite IH by (injection L; auto); reflexivity.
    Qed.
    Lemma ids_filter (i j : list index) (Hj : List.length j = List.length j) :
      ids (filter (fun a => match find_pos a j 0 with None => true | Some _ => false end) i) = filter (fun x => negb (memb (ids j) x)) (ids i).
    Proof.
      induction i as [|a i IH]; [reflexivity|]. cbn [filter ids map].
      destruct (find_pos a j 0) as [[k b]|] eqn:E.
      - assert (M : memb (ids j) (fst a) = true).
        { apply find_pos_some in E as (_ & E1 & E2 & _). apply memb_true. rewrite <- E2. apply in_map. now apply nth_error_In in E1. }
        rewrite M. exact IH.
      - apply find_pos_none in E. apply memb_false in E. rewrite E. cbn [negb map]. f_equal. exact IH.
    Qed.
    Lemma f1_idx : map fst f1 = filter (fun a => match find_pos a i2 0 with None => true | Some _ => false end) i1.
    Proof. exact (filter_combine i1 (fun a => match find_pos a i2 0 with None => true | Some _ => false end) i1 d1 L1). Qed.
    Lemma f2_idx : map fst f2 = filter (fun a => match find_pos a i1 0 with None => true | Some _ => false end) i2.
    Proof. exact (filter_combine i2 (fun a => match find_pos a i1 0 with None => true | Some _ => false end) i2 d2 L2). Qed.
    Lemma f1_ids : ids (map fst f1) = filter (fun x => negb (memb (ids i2) x)) (ids i1).
    Proof. rewrite f1_idx. now apply ids_filter. Qed.
    Lemma f2_ids : ids (map fst f2) = filter (fun x => negb (memb (ids i1) x)) (ids i2).
    Proof. rewrite f2_idx. now apply ids_filter. Qed.
    Lemma combine_ids (i : list index) (d : list nat) a e : In (a, e) (combine i d) -> In (fst a, e) (combine (ids i) d).
    Proof.
      revert d. induction i as [|b i IH]; intros [|c d] H; try destruct H.
      - injection H as -> ->. now left.
      - right. now apply IH.
    Qed.
    Lemma free_range rho : values V p1 rho -> values V p2 rho -> in_range (map rho (ids (map fst fr))) (map snd fr).
    Proof.
      intros V1 V2. unfold ids. rewrite !map_map. unfold in_range.
      assert (G : forall l, (forall a d, In (a, d) l -> In (fst a, d) (combine (ids i1) d1) \/ In (fst a, d) (combine (ids i2) d2)) ->
        Forall2 (fun c d => c < d) (map (fun x : index * nat => rho (fst (fst x))) l) (map snd l)).
      { induction l as [|[a d] l IH]; intro H; [constructor|]. cbn [map fst snd]. constructor.
        - destruct (H a d (or_introl eq_refl)) as [X|X]; [exact (V1 _ _ X)|exact (V2 _ _ X)].
        - apply IH. intros b e Hb. apply H. now right. }
      apply G. intros a d H. unfold fr in H. apply in_app_iff in H as [H|H]; apply filter_In in H as [H _]; apply combine_ids in H; auto.
    Qed.
    Lemma fr_pos : Forall (fun d => 0 < d) (map snd fr).
    Proof.
      destruct C1 as (_ & _ & P1 & _). destruct C2 as (_ & _ & P2 & _). rewrite Forall_forall in *. intros d H.
      apply in_map_iff in H as ([a e] & E & H). cbn [snd] in E. subst e. unfold fr in H.
      apply in_app_iff in H as [H|H]; apply filter_In in H as [H _]; apply in_combine_r in H; auto.
    Qed.
    Lemma fr_ids : ids (map fst fr) = filter (fun x => negb (memb (ids i2) x)) (ids i1) ++ filter (fun x => negb (memb (ids i1) x)) (ids i2).
    Proof. unfold fr. rewrite <- f1_ids, <- f2_ids. unfold ids. now rewrite !map_app. Qed.
    Lemma fr_nodup : NoDup (ids (map fst fr)).
    Proof.
      rewrite fr_ids. pose proof (NoDup_filter (fun x => negb (memb (ids i2) x)) N1) as A.
      pose proof (NoDup_filter (fun x => negb (memb (ids i1) x)) N2) as B.
      assert (D : forall x, In x (filter (fun x => negb (memb (ids i2) x)) (ids i1)) -> ~ In x (filter (fun x => negb (memb (ids i1) x)) (ids i2))).
      { intros x Hx Hy. apply filter_In in Hx as [_ Hx], Hy as [Hy _]. apply negb_true_iff, memb_false in Hx. contradiction. }
      induction A as [|x l Hx A IH]; [exact B|]. cbn [app]. constructor.
      - intro H. apply in_app_iff in H as [H|H]; [contradiction|]. apply (D x); [now left|assumption].
      - apply IH. intros y Hy. apply D. now right.
    Qed.

    Definition element (elem : nat) : res V :=
      bind (index_to_coordinates elem (map snd fr)) (fun coords =>
      bind (fill_do (fun i => existsb (fun c => ci c =? i) cs) coords 0 (List.length i1)) (fun c1 =>
      bind (fill_do (fun i => existsb (fun c => cj c =? i) cs) coords (List.length i1 - List.length cs) (List.length i2)) (fun c2 =>
        sum_loop (ten p1) (ten p2) cs cdim 0 (prodn cdim) c1 c2 v0))).

    Lemma cs_length : List.length cs = List.length (filter (memb (ids i2)) (ids i1)).
    Proof.
      rewrite same_length_inter by (apply N1 || apply N2). rewrite <- rep_ids, map_length.
      generalize cs_rep. clear. induction 1; cbn [List.length]; congruence.
    Qed.

    Lemma element_ok rho : i1 <> [] -> i2 <> [] -> values V p1 rho -> values V p2 rho ->
      element (ci_ (map rho (ids (map fst fr))) (map snd fr)) = Ok (einstein rep rho F).
    Proof.
      intros Ne1 Ne2 V1 V2. unfold element. rewrite (i2c_ci _ _ (free_range rho V1 V2)). cbn [bind].
      assert (E1 : List.length (ids i1) = List.length i1) by apply map_length.
      assert (E2 : List.length (ids i2) = List.length i2) by apply map_length.
      set (coords := map rho (ids (map fst fr))).
      assert (Hco : coords = map rho (filter (fun x => negb (memb (ids i2) x)) (ids i1)) ++ map rho (filter (fun x => negb (memb (ids i1) x)) (ids i2))).
      { unfold coords. now rewrite fr_ids, map_app. }
      unfold fill_do. destruct (List.length i1 =? 0) eqn:Z1.
      { apply Nat.eqb_eq, length_zero_iff_nil in Z1. contradiction. }
      destruct (List.length i2 =? 0) eqn:Z2.
      { apply Nat.eqb_eq, length_zero_iff_nil in Z2. contradiction. }
      rewrite <- E1 at 1.
      rewrite (fill_ok _ (memb (ids i2)) rho coords (ids i1) 0 0 (map rho (filter (fun x => negb (memb (ids i1) x)) (ids i2))));
        [|intros k x Hx; exact (contr_i i1 i2 N1 0 k x Hx)|exact Hco].
      cbn [bind]. rewrite <- E2 at 1.
      rewrite (fill_ok _ (memb (ids i1)) rho coords (ids i2) 0 (List.length i1 - List.length cs) []).
      2:{ intros k x Hx. exact (contr_j i1 i2 0 k x Hx). }
      2:{ rewrite Hco, app_nil_r, skipn_app. rewrite skipn_all2.
          - rewrite map_length. cbn [app]. pose proof (filter_split (memb (ids i2)) (ids i1)) as S. rewrite cs_length.
            match goal with |- skipn ?n _ = _ => replace n with 0 by lia end. reflexivity.
          - rewrite map_length. pose proof (filter_split (memb (ids i2)) (ids i1)) as S. rewrite cs_length. lia. }
      cbn [bind]. rewrite (sum_loop_ok rho V1 V2).
      - f_equal. cbn [Nat.add]. pose proof (nested (fun r => T1 (map r (ids i1))) (fun r => T2 (map r (ids i2))) rep rho v1) as X.
        cbv zeta. fold cdim in X. rewrite X. unfold F. ring.
      - lia.
      - intros x Hx Hn. rewrite rep_ids in Hn. destruct (memb (ids i2) x) eqn:E; [|reflexivity].
        exfalso. apply Hn. apply filter_In. split; [now apply memb_true|now apply memb_true].
      - intros x Hx Hn. rewrite rep_ids in Hn. destruct (memb (ids i1) x) eqn:E; [|reflexivity].
        exfalso. apply Hn. apply filter_In. split; [assumption|assumption].
    Qed.

    Lemma put_all_ok (g : nat -> V) f : forall n i (t : tensor V), (forall k, k < i + n -> nth_error (sym t) k = Some k) ->
      i + n <= List.length (elems t) -> (forall k, i <= k < i + n -> f k = Ok (g k)) ->
      exists t', put_all V t i f n = Ok t' /\ dims t' = dims t /\ sym t' = sym t /\ List.length (elems t') = List.length (elems t) /\
        forall k, nth_error (elems t') k = if (i <=? k) && (k <? i + n) then Some (g k) else nth_error (elems t) k.
    Proof.
      induction n as [|n IH]; intros i t Hs Hl Hf; cbn [put_all].
      - exists t. repeat split; auto. intro k. destruct (i <=? k) eqn:A, (k <? i + 0) eqn:B; try reflexivity.
        apply Nat.leb_le in A. apply Nat.ltb_lt in B. lia.
      - rewrite Hf by lia. cbn [bind]. unfold put_at. rewrite Hs by lia. cbn [of_opt bind].
        destruct (set_nth_ok (elems t) i (g i)) as (l' & E & L & K); [lia|]. rewrite E. cbn [bind].
        destruct (IH (S i) (Tensor (dims t) l' (sym t))) as (t' & R & D & S' & Le & N').
        + cbn [sym]. intros k Hk. apply Hs. lia.
        + cbn [elems]. lia.
        + intros k Hk. apply Hf. lia.
        + exists t'. cbn [dims sym elems] in *. rewrite R. repeat split; auto; [lia|]. intro k. rewrite N', K.
          destruct (Nat.lt_trichotomy k i) as [H|[H|H]].
          * replace (S i <=? k) with false by (symmetry; apply Nat.leb_gt; lia).
            replace (i <=? k) with false by (symmetry; apply Nat.leb_gt; lia).
            replace (k =? i) with false by (symmetry; apply Nat.eqb_neq; lia). reflexivity.
          * subst k. rewrite Nat.eqb_refl, Nat.leb_refl. replace (S i <=? i) with false by (symmetry; apply Nat.leb_gt; lia).
            replace (i <? i + S n) with true by (symmetry; apply Nat.ltb_lt; lia). reflexivity.
          * replace (S i <=? k) with true by (symmetry; apply Nat.leb_le; lia).
            replace (i <=? k) with true by (symmetry; apply Nat.leb_le; lia).
            replace (k =? i) with false by (symmetry; apply Nat.eqb_neq; lia).
            replace (k <? S i + n) with (k <? i + S n) by (f_equal; lia). reflexivity.
    Qed.

    Lemma cdim_ok : mapM (fun c => of_opt (nth_error d1 (ci c))) cs = Ok cdim.
    Proof.
      assert (G : forall cs' rep', Forall2 (matches i1 i2) cs' rep' -> (forall r, In r rep' -> In r rep) ->
        mapM (fun c => of_opt (nth_error d1 (ci c))) cs' = Ok (map rdim rep')).
      { induction 1 as [|c r cs' rep' (M1 & M2 & M3) H IH]; intro S; [reflexivity|]. cbn [mapM map].
        assert (X : exists d, nth_error d1 (ci c) = Some d /\ In (rid r, d) (combine (ids i1) d1)).
        { destruct (nth_error d1 (ci c)) as [d|] eqn:E.
          - exists d. split; [reflexivity|]. assert (Q : nth_error (combine (ids i1) d1) (ci c) = Some (rid r, d)).
            { clear - M1 E. revert M1 E. generalize (ids i1). generalize d1. generalize (ci c).
              induction n as [|n IH]; intros [|y ds] [|x xs] A B; cbn [nth_error combine] in *; try discriminate.
              - congruence.
              - now apply IH. }
            now apply nth_error_In in Q.
          - exfalso. apply nth_error_None in E. assert (ci c < List.length (ids i1)) by (apply nth_error_Some; congruence).
            assert (X : List.length (ids i1) = List.length d1) by (rewrite <- L1; apply map_length). lia. }
        destruct X as (d & Ed & Hd). rewrite Ed. cbn [of_opt bind]. rewrite IH by (intros r' H'; apply S; now right). cbn [bind].
        rewrite (rep_dims1 r d (S r (or_introl eq_refl)) Hd). reflexivity. }
      apply (G cs rep cs_rep). auto.
    Qed.

    Theorem product_ok : i1 <> [] -> i2 <> [] ->
      exists r, proxy_mul V v0 v1 add mul opp p1 p2 = Ok r /\
        idx r = filter (not_in i2) i1 ++ filter (not_in i1) i2 /\
        components V r (fun co => einstein rep (lookup (ids (idx r)) co) F) /\
        forall rho, values V p1 rho -> values V p2 rho ->
          values V r rho /\ at_co (ten r) (map rho (ids (idx r))) = Ok (einstein rep rho F).
    Proof.
      intros Ne1 Ne2. unfold proxy_mul. fold i1 i2 d1 d2 cs f1 f2 fr. rewrite cdim_ok. cbn [bind].
      change (fun elem => bind (index_to_coordinates elem (map snd fr)) _) with element.
      set (final := map snd fr). set (xs := ids (map fst fr)).
      set (g := fun elem => einstein rep (lookup xs (co_of elem final)) F).
      assert (Lx : List.length xs = List.length final) by (unfold xs, final, ids; now rewrite !map_length).
      (* any coordinates of the result give an assignment *)
      assert (Hv : forall co, in_range co final -> values V p1 (lookup xs co) /\ values V p2 (lookup xs co) /\ map (lookup xs co) xs = co).
      { intros co R. pose proof (in_range_length _ _ R) as Lc.
        assert (M : map (lookup xs co) xs = co) by (apply lookup_map; [exact fr_nodup|congruence]).
        assert (Fr : forall a d, In (a, d) fr -> lookup xs co (fst a) < d).
        { intros a d H. apply (range_at (lookup xs co) fr); [|exact H]. fold xs. fold final. rewrite M. exact R. }
        assert (Gen : forall (i j : list index) d x e, List.length i = List.length d -> Forall (fun d => 0 < d) d ->
          (forall a e', In (a, e') (combine i d) -> ~ In (fst a) (ids j) -> In (a, e') fr) ->
          (forall y, In y (ids j) -> In y (ids i) -> ~ In y xs) ->
          In (x, e) (combine (ids i) d) -> lookup xs co x < e).
        { intros i j d x e L P Hin Hout H.
          assert (Ha : exists a, In (a, e) (combine i d) /\ fst a = x).
          { clear - H L. revert d L H. induction i as [|b i IH]; intros [|c d] L H; try destruct H.
            - injection H as <- <-. exists b. split; [now left|reflexivity].
            - destruct (IH d) as (a & A & B); [injection L; auto|assumption|]. exists a. split; [now right|assumption]. }
          destruct Ha as (a & Ha & <-). destruct (in_dec Nat.eq_dec (fst a) (ids j)) as [I|I].
          - rewrite lookup_out.
            + rewrite Forall_forall in P. apply P. now apply in_combine_r in H.
            + apply Hout; [assumption|]. now apply in_combine_l in H.
          - apply Fr. now apply Hin. }
        destruct C1 as (_ & _ & P1 & _). destruct C2 as (_ & _ & P2 & _).
        split; [|split; [|exact M]].
        - intros x e H. apply (Gen i1 i2 d1 x e L1 P1); [| |exact H].
          + intros a e' Ha Hn. unfold fr. apply in_app_iff. left. unfold f1, free1. apply filter_In. split; [exact Ha|].
            cbn [fst]. apply find_pos_none with (i := 0) in Hn. now rewrite Hn.
          + intros y Hj Hi Hx. unfold xs in Hx. rewrite fr_ids in Hx. apply in_app_iff in Hx as [Hx|Hx]; apply filter_In in Hx as [_ Hx];
              apply negb_true_iff, memb_false in Hx; contradiction.
        - intros x e H. apply (Gen i2 i1 d2 x e L2 P2); [| |exact H].
          + intros a e' Ha Hn. unfold fr. apply in_app_iff. right. unfold f2, free2. apply filter_In. split; [exact Ha|].
            cbn [fst]. apply find_pos_none with (i := 0) in Hn. now rewrite Hn.
          + intros y Hj Hi Hx. unfold xs in Hx. rewrite fr_ids in Hx. apply in_app_iff in Hx as [Hx|Hx]; apply filter_In in Hx as [_ Hx];
              apply negb_true_iff, memb_false in Hx; contradiction. }
      assert (Hel : forall k, 0 <= k < 0 + n_elements final -> element k = Ok (g k)).
      { intros k [_ Hk]. rewrite n_elements_pos in Hk by exact fr_pos. destruct (i2c_ok final k Hk) as (co & R & I & Ck).
        destruct (Hv co R) as (V1 & V2 & M). pose proof (element_ok (lookup xs co) Ne1 Ne2 V1 V2) as X.
        fold xs in X. fold final in X. rewrite M, Ck in X. rewrite X. unfold g, co_of. now rewrite I. }
      assert (En : n_elements final = prodn final) by (apply n_elements_pos, fr_pos).
      destruct (put_all_ok g element (n_elements final) 0 (zeros V v0 final)) as (t & E & D & S & Le & K).
      { intros k Hk. cbn [zeros sym]. rewrite En in Hk. rewrite (nth_error_nth' _ 0) by (rewrite seq_length; lia). now rewrite seq_nth by lia. }
      { cbn [zeros elems]. rewrite repeat_length. lia. }
      { exact Hel. }
      rewrite E. cbn [bind]. eexists. split; [reflexivity|]. cbn [idx ten].
      assert (At : forall co, in_range co final -> at_co t co = Ok (g (ci_ co final))).
      { intros co R. unfold at_co. rewrite D. cbn [zeros dims]. rewrite (c2i_ok _ _ R). cbn [bind]. unfold at_.
        rewrite S. cbn [zeros sym]. pose proof (ci_lt _ _ R) as Lt.
        rewrite (nth_error_nth' _ 0) by (rewrite seq_length; exact Lt). rewrite seq_nth by lia. cbn [of_opt bind Nat.add].
        rewrite K. replace (0 <=? ci_ co final) with true by reflexivity.
        replace (ci_ co final <? 0 + n_elements final) with true by (symmetry; apply Nat.ltb_lt; lia). reflexivity. }
      assert (Gco : forall co, in_range co final -> g (ci_ co final) = einstein rep (lookup xs co) F).
      { intros co R. unfold g, co_of. now rewrite (i2c_ci _ _ R). }
      split; [|split].
      - unfold fr. rewrite map_app, f1_idx, f2_idx. f_equal; apply filter_ext; intro a; unfold not_in.
        + apply not_in_find.
        + apply not_in_find.
      - unfold components. cbn [idx ten]. rewrite D. cbn [zeros dims]. split; [unfold final; now rewrite !map_length|].
        split; [exact fr_nodup|]. split; [exact fr_pos|]. intros co R. rewrite At by exact R. now rewrite Gco.
      - intros rho V1 V2. pose proof (free_range rho V1 V2) as R. split.
        + intros x d H. cbn [idx ten] in H. rewrite D in H. cbn [zeros dims] in H. fold xs in R, H. fold final in R.
          clear - R H. revert R H. generalize final. generalize xs. induction xs0 as [|y l IH]; intros [|e ds] R H; try destruct H.
          * injection H as -> ->. inversion R; assumption.
          * cbn [map] in R. inversion R; subst. eapply IH; eassumption.
        + rewrite At by exact R. pose proof (element_ok rho Ne1 Ne2 V1 V2) as X. rewrite Hel in X; [exact X|].
          split; [lia|]. rewrite En. now apply ci_lt.
    Qed.
  End Loop.
End Product.
