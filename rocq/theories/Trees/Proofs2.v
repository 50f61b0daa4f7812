From Verif.Common Require Import Prelude Writes.
From Coq Require Import Reals Permutation Lra Lia.
From Verif.Trees Require Import Model Spec Proofs.
Local Open Scope nat_scope.
Lemma numbered_fst l : forall k, map fst (numbered k l) = l.
Proof. induction l as [|x l IH]; intro k; cbn; [reflexivity|]. rewrite IH. reflexivity. Qed.
Lemma numbered_snd l : forall k, map snd (numbered k l) = seq k (List.length l).
Proof. induction l as [|x l IH]; intro k; cbn; [reflexivity|]. rewrite IH. reflexivity. Qed.
Lemma numbered_In l : forall k x p, In (x, p) (numbered k l) <-> exists j, nth_error l j = Some x /\ p = k + j.
Proof.
  induction l as [|y l IH]; intros k x p; cbn [numbered In].
  - split; [contradiction|]. intros ([|j] & H & _); discriminate.
  - rewrite IH. split.
    + intros [E|(j & E & ->)]; [injection E as -> ->; exists 0; split; [reflexivity|lia]|]. exists (S j). split; [exact E|lia].
    + intros ([|j] & E & ->); cbn in E; [injection E as ->; left; f_equal; lia|]. right. exists j. split; [exact E|lia].
Qed.
Lemma nodup_app {A} (l : list A) : forall m, NoDup l -> NoDup m -> (forall x, In x l -> ~ In x m) -> NoDup (l ++ m).
Proof.
  induction l as [|x l IH]; intros m H1 H2 D; [exact H2|]. inversion H1; subst. cbn. constructor.
  - rewrite in_app_iff. intros [C|C]; [contradiction|]. eapply D; [left; reflexivity|exact C].
  - apply IH; [assumption|assumption|]. intros y Hy. apply D. right. exact Hy.
Qed.
Lemma nodup_drop {A} (l g g' w w' : list A) : (g' = g \/ g' = []) -> (w' = w \/ w' = []) -> List.length g <= 1 -> List.length w <= 1 -> NoDup (l ++ g ++ w) -> NoDup (l ++ g' ++ w').
Proof.
  intros Hg Hw Lg Lw H. assert (H1 : NoDup (l ++ g ++ w')).
  { destruct Hw as [->| ->]; [exact H|]. destruct w as [|x [|]]; [exact H| |cbn in Lw; lia]. rewrite app_assoc in *. apply NoDup_remove_1 in H. exact H. }
  destruct Hg as [->| ->]; [exact H1|]. destruct g as [|x [|]]; [exact H1| |cbn in Lg; lia]. cbn [app] in *. apply NoDup_remove_1 in H1. exact H1.
Qed.
Section Load.
  Variables (order : nat -> list R -> list R) (a : arguments) (t : tree).
  Definition conn : list (str * nat) := match branches a with [] => format a | l => places a 0 l end.
  Definition gens : list branch := if getGenPdf a then if mem (S_ "genPdf") (cols t) then [(S_ "genPdf", Gen)] else [] else [].
  Definition wgts : list branch := match weightBranch a with [] => [] | w => if mem w (cols t) then [(w, Wgt)] else [] end.
  Definition all : list branch := map as_val (conn ++ numbered (List.length (format a)) (extra a)) ++ gens ++ wgts.
  Hypothesis RD : readable a t (map fst conn).
  Hypothesis SL : forall x k, In (x, k) conn -> k < List.length (format a).
  Hypothesis ND : NoDup (map snd conn).
  Lemma connect_ok : connect a t = Ok all.
  Proof.
    unfold connect. fold conn. rewrite setValues_ok.
    2: { intros x k H. split; [apply RD; rewrite in_app_iff; left; apply (in_map fst) in H; exact H|]. apply SL in H. unfold size_of. lia. }
    cbn [bind]. rewrite setValues_ok.
    2: { intros x k H. split; [apply RD; rewrite in_app_iff; right; apply (in_map fst) in H; rewrite numbered_fst in H; exact H|].
         apply numbered_In in H. destruct H as (j & E & ->). unfold size_of. assert (j < List.length (extra a)) by (apply nth_error_Some; congruence). lia. }
    cbn [bind app]. unfold all. rewrite map_app. unfold gens, wgts, setBranch. cbn [fst]. f_equal.
    destruct (getGenPdf a), (weightBranch a) as [|c w]; cbn [app]; try destruct (mem (S_ "genPdf") (cols t)); try destruct (mem (c :: w) (cols t)); cbn [app]; rewrite ?app_nil_r, <- ?app_assoc; reflexivity.
  Qed.
  Lemma all_fst : NoDup (map fst all).
  Proof.
    destruct RD as [_ H]. unfold all. rewrite !map_app, !map_map. cbn [as_val fst]. rewrite numbered_fst. rewrite app_assoc in H. cbn in H |- *.
    eapply nodup_drop; [| | | |exact H].
    - unfold gens. destruct (getGenPdf a); [|left; reflexivity]. destruct (mem _ _); [left|right]; reflexivity.
    - unfold wgts. destruct (weightBranch a) as [|c w]; [left; reflexivity|]. replace (str_eqb (c :: w) []) with false by (symmetry; apply str_eqb_neq; discriminate).
      destruct (mem _ _); [left|right]; reflexivity.
    - destruct (getGenPdf a); cbn; lia.
    - destruct (str_eqb _ _); cbn; lia.
  Qed.
  Lemma all_Val x k : In (x, Val k) all <-> In (x, k) conn \/ exists j, nth_error (extra a) j = Some x /\ k = List.length (format a) + j.
  Proof.
    unfold all. rewrite !in_app_iff, in_map_iff. rewrite <- numbered_In. split.
    - intros [([y q] & E & H)|[H|H]].
      + unfold as_val in E. cbn in E. injection E as -> ->. apply in_app_iff in H. exact H.
      + unfold gens in H. destruct (getGenPdf a); [|contradiction]. destruct (mem _ _); [|contradiction]. destruct H as [H|[]]; discriminate.
      + unfold wgts in H. destruct (weightBranch a) as [|c w]; [contradiction|]. destruct (mem _ _); [|contradiction]. destruct H as [H|[]]; discriminate.
    - intro H. left. exists (x, k). split; [reflexivity|]. apply in_app_iff. exact H.
  Qed.
  Lemma vals_snd (l : list (str * nat)) : map snd (map as_val l) = map Val (map snd l).
  Proof. rewrite !map_map. reflexivity. Qed.
  Lemma nodup_Val l : NoDup l -> NoDup (map Val l).
  Proof. intro H. apply FinFun.Injective_map_NoDup; [|exact H]. intros x y E. injection E. auto. Qed.
  Lemma all_snd : NoDup (map snd all).
  Proof.
    unfold all. rewrite !map_app, !vals_snd, numbered_snd. apply nodup_app; [|unfold gens, wgts|].
    - apply nodup_app; [apply nodup_Val; exact ND|apply nodup_Val; apply seq_NoDup|]. intros z H C. apply in_map_iff in H, C. destruct H as (k & <- & H). destruct C as (k' & E & C).
      injection E as ->. apply in_seq in C. apply in_map_iff in H. destruct H as ((x & k2) & E & H). cbn in E. subst. apply SL in H. lia.
    - destruct (getGenPdf a), (weightBranch a) as [|c w]; try destruct (mem (S_ "genPdf") (cols t)); try destruct (mem (c :: w) (cols t)); cbn; repeat constructor; cbn; intuition discriminate.
    - intros z H C. apply in_app_iff in H. assert (exists k, z = Val k) as (k & ->) by (destruct H as [H|H]; apply in_map_iff in H; destruct H as (k & <- & _); eexists; reflexivity).
      unfold gens, wgts in C. destruct (getGenPdf a), (weightBranch a) as [|c w]; try destruct (mem (S_ "genPdf") (cols t)); try destruct (mem (c :: w) (cols t)); cbn in C; intuition discriminate.
  Qed.
  Lemma all_bound x k : In (x, Val k) all -> k < size_of a.
  Proof.
    rewrite all_Val. unfold size_of. intros [H|(j & E & ->)]; [apply SL in H; lia|]. assert (j < List.length (extra a)) by (apply nth_error_Some; congruence). lia.
  Qed.
  Lemma not_val_Gen (l : list (str * nat)) x : In (x, Gen) (map as_val l) -> False.
  Proof. rewrite in_map_iff. intros (p & E & _). discriminate. Qed.
  Lemma not_val_Wgt (l : list (str * nat)) x : In (x, Wgt) (map as_val l) -> False.
  Proof. rewrite in_map_iff. intros (p & E & _). discriminate. Qed.
  Lemma snd_In (o : target) : In o (map snd all) -> exists x, In (x, o) all.
  Proof. rewrite in_map_iff. intros ((x & o') & E & H). cbn in E. subst. exists x. exact H. Qed.
  Lemma weight_full row e : full a all row e -> weight e = or_one (negb (str_eqb (weightBranch a) [])) t (weightBranch a) row.
  Proof.
    intros (e0 & (_ & I & _) & (_ & _ & _ & F1 & F2 & _)). unfold or_one.
    assert (NO : wgts = [] -> weight e = 1%R).
    { intro E. assert (C : ~ In Wgt (map snd all)).
      { intro C. apply snd_In in C. destruct C as (x & C). unfold all in C. rewrite E, !in_app_iff in C. destruct C as [C|[C|[]]]; [eapply not_val_Wgt; exact C|].
        unfold gens in C. destruct (getGenPdf a); [|contradiction]. destruct (mem _ _); [|contradiction]. destruct C as [C|[]]; discriminate. }
      rewrite (F2 C). apply I. exact C. }
    unfold wgts in NO. assert (W : In (weightBranch a, Wgt) wgts -> weight e = row (weightBranch a)) by (intro H; apply F1; unfold all; rewrite !in_app_iff; auto). unfold wgts in W.
    destruct (weightBranch a) as [|c w]; [apply NO; reflexivity|]. replace (str_eqb (c :: w) []) with false by (symmetry; apply str_eqb_neq; discriminate). cbn [negb].
    destruct (in_dec str_dec (c :: w) (cols t)) as [H|H].
    - apply mem_iff in H. rewrite H in W. apply W. left. reflexivity.
    - destruct (mem (c :: w) (cols t)) eqn:M; [apply mem_iff in M; contradiction|]. apply NO. reflexivity.
  Qed.
  Lemma gen_full row e : full a all row e -> genPdf e = or_one (getGenPdf a) t (S_ "genPdf") row.
  Proof.
    intros (e0 & (_ & _ & I) & (_ & _ & _ & _ & _ & F1 & F2)). unfold or_one.
    assert (NO : gens = [] -> genPdf e = 1%R).
    { intro E. assert (C : ~ In Gen (map snd all)).
      { intro C. apply snd_In in C. destruct C as (x & C). unfold all in C. rewrite E, !in_app_iff in C. destruct C as [C|[[]|C]]; [eapply not_val_Gen; exact C|].
        unfold wgts in C. destruct (weightBranch a) as [|c w]; [contradiction|]. destruct (mem _ _); [|contradiction]. destruct C as [C|[]]; discriminate. }
      rewrite (F2 C). apply I. exact C. }
    unfold gens in NO. assert (W : In (S_ "genPdf", Gen) gens -> genPdf e = row (S_ "genPdf")) by (intro H; apply F1; unfold all; rewrite !in_app_iff; auto). unfold gens in W.
    destruct (getGenPdf a); [|apply NO; reflexivity].
    destruct (in_dec str_dec (S_ "genPdf") (cols t)) as [H|H].
    - apply mem_iff in H. rewrite H in W. apply W. left. reflexivity.
    - destruct (mem (S_ "genPdf") (cols t)) eqn:M; [apply mem_iff in M; contradiction|]. apply NO. reflexivity.
  Qed.
  Lemma inv_of e e' : inv a all e -> List.length (vals e') = List.length (vals e) -> weight e' = weight e -> genPdf e' = genPdf e -> inv a all e'.
  Proof. intros (A & B & D) L W G. unfold inv. rewrite L, W, G. auto. Qed.
  Lemma full_inv row e : full a all row e -> inv a all e.
  Proof. intros (e0 & (I1 & I2 & I3) & (F0 & _ & _ & _ & F4 & _ & F6)). split; [congruence|]. split; intro H; [rewrite F4 by exact H; auto|rewrite F6 by exact H; auto]. Qed.
  Lemma full_vals row e : full a all row e -> List.length (vals e) = size_of a /\ (forall x k, In (x, k) conn -> nth_error (vals e) k = Some (row x)) /\
    forall j x, nth_error (extra a) j = Some x -> nth_error (vals e) (List.length (format a) + j) = Some (row x).
  Proof.
    intros (e0 & (I1 & _) & (F0 & F1 & _)). split; [congruence|]. split; intros.
    - apply F1. apply all_Val. left. exact H.
    - apply F1. apply all_Val. right. exists j. split; [exact H|reflexivity].
  Qed.
  Lemma scaled row e : full a all row e -> let v := scale a (List.length (format a)) (vals e) in
    List.length v = size_of a /\ (forall x k, In (x, k) conn -> nth_error v k = Some (row x * units a)%R) /\
    forall j x, nth_error (extra a) j = Some x -> nth_error v (List.length (format a) + j) = Some (row x).
  Proof.
    intros F v. destruct (full_vals row e F) as (L & V & X). unfold v. split; [rewrite scale_length; exact L|]. split; intros; rewrite scale_nth.
    - rewrite (V _ _ H). cbn [option_map]. apply SL in H. apply Nat.ltb_lt in H. rewrite H. reflexivity.
    - rewrite (X _ _ H). cbn [option_map]. replace (List.length (format a) + j <? List.length (format a)) with false by (symmetry; apply Nat.ltb_ge; lia). reflexivity.
  Qed.
  Lemma body_energy : hasEnergy a = true -> forall pos row e, full a all row e -> exists e', body as_read a pos e = Ok e' /\ read_as a t (named conn) row e' /\ inv a all e'.
  Proof.
    unfold named. intros HE pos row e F. destruct (scaled row e F) as (L & V & X). unfold body, as_read. rewrite HE. cbn [bind]. eexists. split; [reflexivity|]. split.
    - unfold read_as. cbn [vals weight genPdf]. split; [exact L|]. split; [exact V|]. split; [exact X|]. split; [apply weight_full|apply gen_full]; exact F.
    - apply (inv_of e); [eapply full_inv; exact F|cbn; apply scale_length|reflexivity|reflexivity].
  Qed.
  Lemma body_momenta : hasEnergy a = false -> 4 * List.length (masses a) <= List.length (format a) ->
    (forall x k i, In (x, k) conn -> i < List.length (masses a) -> k <> 4 * i + 3) ->
    forall pos row e, full a all row e -> exists e', body as_read a pos e = Ok e' /\ (read_as a t (named conn) row e' /\ on_shell (masses a) e') /\ inv a all e'.
  Proof.
    unfold named. intros HE HL HK pos row e F. destruct (scaled row e F) as (L & V & X). unfold body, as_read. rewrite HE.
    destruct (energies_ok (masses a) 0 (scale a (List.length (format a)) (vals e))) as (v' & E & L' & U & S'); [rewrite L; unfold size_of; lia|]. rewrite E. cbn [bind].
    eexists. split; [reflexivity|]. split; [split|].
    - unfold read_as. cbn [vals weight genPdf]. split; [rewrite L'; exact L|]. split; [|split; [|split; [apply weight_full|apply gen_full]; exact F]].
      + intros x k H. rewrite U; [apply V; exact H|]. intros i Hi. cbn [Nat.add]. eapply HK; eassumption.
      + intros j x H. rewrite U; [apply X; exact H|]. intros i Hi. lia.
    - intros k m H. destruct (S' k m H) as (x & y & z & A1 & A2 & A3 & A4). cbn [Nat.add vals] in *. exists x, y, z, (sqrt (m * m + x * x + y * y + z * z))%R.
      assert (HU : forall c, c < 3 -> nth_error v' (4 * k + c) = nth_error (scale a (List.length (format a)) (vals e)) (4 * k + c)) by (intros c Hc; apply U; intros i Hi; lia).
      split; [replace (4 * k) with (4 * k + 0) by lia; rewrite HU by lia; replace (4 * k + 0) with (4 * k) by lia; exact A1|].
      split; [rewrite HU by lia; exact A2|]. split; [rewrite HU by lia; exact A3|]. split; [exact A4|]. split; [apply sqrt_pos|].
      rewrite sqrt_sqrt; [ring|]. assert (forall q, 0 <= q * q)%R by (intro; nra). pose proof (H0 m); pose proof (H0 x); pose proof (H0 y); pose proof (H0 z). lra.
    - apply (inv_of e); [eapply full_inv; exact F|cbn; rewrite L'; apply scale_length|reflexivity|reflexivity].
  Qed.
  (** Reading all rows, and the rows of a list. *)
  Lemma load_all Q : filter_ a = None -> entryList a = [] -> rows t <> [] ->
    (forall pos row e, full a all row e -> exists e', body order a pos e = Ok e' /\ Q row e' /\ inv a all e') ->
    Forall2 Q (rows t) (fst (loadFromTree order a t)) /\ snd (loadFromTree order a t) = Ok tt.
  Proof.
    intros HF HL HR HB. unfold loadFromTree. rewrite connect_ok. cbn [after]. cbv zeta. unfold entries. rewrite HF, HL.
    apply (run_ok order a t [] all (rows t) Q all_fst all_snd all_bound); [| |exact HB|exact HR|reflexivity].
    - intros pos r s H. unfold getEntry. cbn [bind]. rewrite H. reflexivity.
    - intro s. unfold getEntry. cbn [bind]. replace (nth_error (rows t) (List.length (rows t))) with (@None (str -> R)) by (symmetry; apply nth_error_None; lia). reflexivity.
  Qed.
  Lemma load_list Q sel : entries a t <> [] -> Forall2 (fun i r => nth_error (rows t) i = Some r) (entries a t) sel ->
    (forall pos row e, full a all row e -> exists e', body order a pos e = Ok e' /\ Q row e' /\ inv a all e') ->
    Forall2 Q sel (fst (loadFromTree order a t)) /\ snd (loadFromTree order a t) = UB.
  Proof.
    intros HE HS HB. unfold loadFromTree. rewrite connect_ok. cbn [after]. cbv zeta. set (el := entries a t) in *.
    assert (HL : List.length el = List.length sel) by (clear - HS; induction HS; cbn; congruence).
    destruct el as [|i0 el'] eqn:Eel; [contradiction|]. rewrite <- Eel in *.
    assert (R := run_ok order a t el all sel Q all_fst all_snd all_bound). rewrite Eel in R. rewrite Eel. apply R; clear R.
    - intros pos r s H. unfold getEntry. assert (G : exists i, nth_error el pos = Some i /\ nth_error (rows t) i = Some r).
      { clear - HS H. revert pos H. induction HS as [|i r0 el sel E HS IH]; intros [|pos] H; cbn in *; try discriminate; [injection H as <-; exists i; split; [reflexivity|exact E]|apply IH; exact H]. }
      destruct G as (i & G1 & G2). rewrite <- Eel, G1. try rewrite Eel. cbn [of_opt bind]. rewrite G2. reflexivity.
    - intro s. unfold getEntry. rewrite <- HL, <- Eel. replace (nth_error el (List.length el)) with (@None nat) by (symmetry; apply nth_error_None; lia). try rewrite Eel. reflexivity.
    - exact HB.
    - intro C. rewrite C in HL. rewrite Eel in HL. discriminate.
    - cbn. rewrite <- HL, Eel. reflexivity.
  Qed.
End Load.
(** The rows that pass a filter. *)
Lemma passing_sel f l all : forall i, (forall j, nth_error l j = nth_error all (i + j)) -> Forall2 (fun i r => nth_error all i = Some r) (passing f i l) (filter f l).
Proof.
  induction l as [|r l IH]; intros i H; cbn [passing filter]; [constructor|]. assert (IH' : Forall2 (fun i r => nth_error all i = Some r) (passing f (S i) l) (filter f l)).
  { apply IH. intro j. specialize (H (S j)). cbn [nth_error] in H. rewrite H. f_equal. lia. }
  destruct (f r); [|exact IH']. constructor; [|exact IH']. specialize (H 0). cbn in H. rewrite Nat.add_0_r in H. symmetry. exact H.
Qed.

Lemma places_In a l : forall p x k, In (x, k) (places a p l) <-> exists j, nth_error l j = Some x /\ k = place a (p + j).
Proof.
  induction l as [|y l IH]; intros p x k; cbn [places In].
  - split; [contradiction|]. intros ([|j] & H & _); discriminate.
  - rewrite IH. split.
    + intros [E|(j & E & ->)]; [injection E as -> <-; exists 0; split; [reflexivity|f_equal; lia]|]. exists (S j). split; [exact E|f_equal; lia].
    + intros ([|j] & E & ->); cbn [nth_error] in E; [injection E as ->; left; do 2 f_equal; lia|]. right. exists j. split; [exact E|f_equal; lia].
Qed.
Lemma places_fst a l : forall p, map fst (places a p l) = l.
Proof. induction l as [|x l IH]; intro p; cbn [places map fst]; [reflexivity|]. rewrite IH. reflexivity. Qed.
Lemma places_snd a l : forall p, map snd (places a p l) = map (place a) (seq p (List.length l)).
Proof. induction l as [|x l IH]; intro p; cbn [places map snd seq List.length]; [reflexivity|]. rewrite IH. reflexivity. Qed.
Lemma places_nodup a p l : NoDup (map snd (places a p l)).
Proof.
  rewrite places_snd. apply FinFun.Injective_map_NoDup; [|apply seq_NoDup]. intros x y. unfold place. destruct (hasEnergy a); [auto|].
  pose proof (Nat.div_mod x 3). pose proof (Nat.div_mod y 3). pose proof (Nat.mod_upper_bound x 3). pose proof (Nat.mod_upper_bound y 3). lia.
Qed.
Lemma read_as_mono a t (c c' : str -> nat -> Prop) row e : (forall x k, c' x k -> c x k) -> read_as a t c row e -> read_as a t c' row e.
Proof. intros H (A & B & D). split; [exact A|]. split; [|exact D]. intros x k Hk. apply B, H, Hk. Qed.
Lemma forall2_impl {A B} (P Q : A -> B -> Prop) l m : (forall x y, P x y -> Q x y) -> Forall2 P l m -> Forall2 Q l m.
Proof. intros H F. induction F; constructor; auto. Qed.
Lemma perm_bound (f : list (str * nat)) : Permutation (map snd f) (seq 0 (List.length f)) -> (forall x k, In (x, k) f -> k < List.length f) /\ NoDup (map snd f).
Proof.
  intro P. split.
  - intros x k H. apply (in_map snd) in H. apply (Permutation_in _ P) in H. apply in_seq in H. cbn in H. lia.
  - apply (Permutation_NoDup (Permutation_sym P)). apply seq_NoDup.
Qed.
Lemma find_name (L : list (str * nat)) x k : NoDup (map fst L) -> In (x, k) L -> find (fun f => str_eqb (fst f) x) L = Some (x, k).
Proof.
  induction L as [|[y q] L IH]; intros N H; [contradiction|]. cbn [map fst find] in *. inversion N; subst. destruct H as [H|H].
  - injection H as -> ->. rewrite str_eqb_refl. reflexivity.
  - destruct (str_eqb y x) eqn:E; [|apply IH; assumption]. apply str_eqb_eq in E. subst. exfalso. apply H2. apply (in_map fst) in H. exact H.
Qed.
Lemma find_no_name (L : list (str * nat)) x : ~ In x (map fst L) -> find (fun f => str_eqb (fst f) x) L = None.
Proof.
  induction L as [|[y q] L IH]; intro H; [reflexivity|]. cbn [map fst find In] in *. destruct (str_eqb y x) eqn:E; [apply str_eqb_eq in E; tauto|]. apply IH. tauto.
Qed.
Lemma combine_numbered l : forall k, combine l (seq k (List.length l)) = numbered k l.
Proof. induction l as [|x l IH]; intro k; cbn; [reflexivity|]. rewrite IH. reflexivity. Qed.
Lemma nodup_prefix {A} (l m : list A) : NoDup (l ++ m) -> NoDup l.
Proof. induction l as [|x l IH]; intro H; [constructor|]. inversion H; subst. constructor; [|apply IH; assumption]. intro C. apply H2. apply in_app_iff. auto. Qed.
