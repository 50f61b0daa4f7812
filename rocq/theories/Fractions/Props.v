From Verif.Common Require Import Prelude.
From Coq Require Import Reals Lra Lia Sorted Permutation.
From Verif.Utilities Require Import Model.
From Verif.Coherent Require Import Model Spec Real.
From Verif.Fit Require Model.
From Verif.Fractions Require Import Model Spec Proofs.
Local Open Scope nat_scope.

(** The amplitudes of a process are those with a coupling in whose name it occurs, and those of a particle the ones in whose descriptor its
    name occurs. *)
Theorem C104_indices mes label : numbers (fun m => uses m label) mes (processIndex mes label) /\ numbers (fun m => within label (descriptor m)) mes (findIndices mes label).
Proof. split; apply select_numbers; intro m; [apply contains_uses | apply has_text_within]. Qed.
Print Assumptions C104_indices.

(** Every list of fractions is given with its largest first, each with its name, value and error, followed by the sum of them. *)
Theorem C104_list nm g errors name ns cs : List.length nm = List.length g * List.length g -> List.length (errors ns cs) = S (List.length cs) ->
  Forall (fun i => i < List.length g) ns -> (forall c, In c cs -> Forall (fun i => i < List.length g) (fi c) /\ Forall (fun i => i < List.length g) (fj c)) ->
  exists fs fs' v e, calculate nm g errors name ns cs = Ok (fs' ++ [Fraction (S_ "Sum_" ++ name) v e]) /\ Permutation fs fs' /\ decreasing fs' /\
    Forall2 (fun c f => frname f = fname c /\ ff_val R RS nm g ns (fi c) (fj c) = Ok (value f)) cs fs /\ map error fs ++ [e] = errors ns cs /\ v = Rsum value fs.
Proof.
  intros Hn He Hs Hc. assert (Hc' : Forall (inside g) cs) by (apply Forall_forall; exact Hc).
  destruct (calculate_ok nm g Hn errors name ns cs He Hs Hc') as (fs & fs' & e & A & B & C & D & E).
  exists fs, fs', (Rsum (frac nm g ns) cs), e. split; [exact A | split; [exact B | split; [exact C | split; [| split]]]].
  - clear - D Hn Hs Hc'. induction D as [| c f cs fs [H1 H2] D IH]; constructor; inversion Hc' as [| ? ? [I1 I2] I3]; subst; [| apply IH; exact I3]. split; [exact H1|].
    rewrite (ff_val_ok nm g Hn ns _ _ Hs I1 I2), H2. reflexivity.
  - exact E.
  - clear - D. induction D as [| c f cs fs [H1 H2] D IH]; [reflexivity|]. unfold Rsum in *. cbn. rewrite H2, IH. reflexivity.
Qed.
Print Assumptions C104_list.

(** ** The sum rule *)
Lemma lookup_in rs h cs : NoDup (map fst rs) -> In (h, cs) rs -> lookup rs h = cs.
Proof.
  induction rs as [| [k x] rs IH]; intros N H; [destruct H|]. inversion N as [| ? ? Nk N']; subst. cbn [lookup]. destruct H as [E|H].
  - injection E as -> ->. rewrite str_eqb_refl. reflexivity.
  - destruct (str_eqb k h) eqn:E; [| apply IH; assumption]. apply str_eqb_eq in E. subst k. exfalso. apply Nk. change h with (fst (h, cs)). apply in_map. exact H.
Qed.
Lemma nodup_concat (gs : list (list nat)) : (forall a, In a gs -> NoDup a) -> (forall i j a b x, nth_error gs i = Some a -> nth_error gs j = Some b -> In x a -> In x b -> i = j) -> NoDup (List.concat gs).
Proof.
  induction gs as [| a gs IH]; intros H1 H2; cbn; [constructor|].
  assert (N : NoDup (List.concat gs)). { apply IH; [intros b Hb; apply H1; right; exact Hb|]. intros i j b c x A B C D. assert (S i = S j) by (apply (H2 (S i) (S j) b c x); assumption). lia. }
  assert (D : forall x, In x a -> ~ In x (List.concat gs)).
  { intros x Hx Hc. apply in_concat in Hc as (b & Hb & Hxb). apply In_nth_error in Hb as (j & Hj). assert (0 = S j) by (apply (H2 0 (S j) a b x); [reflexivity | assumption | assumption | assumption]). lia. }
  clear IH H2. specialize (H1 a (or_introl eq_refl)). clear -H1 N D. induction H1 as [| x a Hx H1 IH]; cbn; [exact N|]. constructor.
  - rewrite in_app_iff. intros [C|C]; [contradiction | exact (D x (or_introl eq_refl) C)].
  - apply IH. intros y Hy. apply D. right. exact Hy.
Qed.

(** When each amplitude belongs to exactly one of the decays of the mother, and at least two of them have amplitudes, each decay that has any is listed
    with its share of the total, and the sum of these fractions and twice the sum of the interference fractions is one. *)
Theorem C104_sum_partial nm g errors mes rs mother prefix ps N :
  List.length nm = List.length g * List.length g -> List.length mes = List.length g -> (forall ns cs, List.length (errors ns cs) = S (List.length cs)) ->
  NoDup (map fst rs) -> In (mother, ps) rs -> (forall p, In p ps -> cprefix p = prefix) ->
  (forall m, In m mes -> within mother (descriptor m)) ->
  (forall i m, nth_error mes i = Some m -> exists k p, nth_error ps k = Some p /\ uses m (cname p) /\ forall k' p', nth_error ps k' = Some p' -> uses m (cname p') -> k' = k) ->
  (exists k k' p p' m m', k <> k' /\ nth_error ps k = Some p /\ nth_error ps k' = Some p' /\ In m mes /\ In m' mes /\ uses m (cname p) /\ uses m' (cname p')) ->
  ff_norm R RS nm g (seq 0 (List.length mes)) = Ok N -> N <> 0%R ->
  exists out s es x ex, fitFractions nm g errors mes mother prefix rs = Ok (out ++ [Fraction (S_ "Sum_" ++ mother ++ S_ "_interference") x ex]) /\
    In (Fraction (S_ "Sum_" ++ mother) s es) out /\ (s + 2 * x = 1)%R /\
    forall p m, In p ps -> In m mes -> uses m (cname p) -> exists is v e, numbers (fun m => uses m (cname p)) mes is /\ In (Fraction (cname p) v e) out /\ (v * N = S2 nm g is is)%R.
Proof.
  intros Hn HL He Hk Hin Hpre Hd Hu Htwo HN N0.
  set (ix := fun p => processIndex mes (cname p)).
  assert (HI : forall p, numbers (fun m => uses m (cname p)) mes (ix p)) by (intro p; apply C104_indices).
  assert (HR : forall p, Forall (fun i => i < List.length g) (ix p)) by (intro p; rewrite <- HL; apply (numbers_lt _ _ _ (HI p))).
  set (ns := seq 0 (List.length mes)) in *.
  assert (HNS : findIndices mes mother = ns).
  { destruct (proj2 (C104_indices mes mother)) as [S1 S2]. apply sorted_eq; [exact S1 | apply seq_sorted |]. intro i. unfold ns. rewrite S2, in_seq. split.
    - intros (m & E & _). assert (i < List.length mes) by (apply nth_error_Some; congruence). lia.
    - intros [_ H]. cbn in H. destruct (nth_error mes i) as [m|] eqn:E; [| apply nth_error_None in E; lia]. exists m. split; [reflexivity|]. apply Hd. apply nth_error_In in E. exact E. }
  assert (HRn : forall h, Forall (fun i => i < List.length g) (findIndices mes h)) by (intro h; rewrite <- HL; apply (numbers_lt _ _ _ (proj2 (C104_indices mes h)))).
  assert (HRs : Forall (fun i => i < List.length g) ns) by (rewrite <- HNS; apply HRn).
  rewrite (ff_norm_ok nm g Hn ns HRs) in HN. injection HN as HN.
  assert (Huniq : forall i k k' p p', In i (ix p) -> In i (ix p') -> nth_error ps k = Some p -> nth_error ps k' = Some p' -> k = k').
  { intros i k k' p p' Hi Hi' Hp Hp'. apply (HI p) in Hi as (m & Em & Um). apply (HI p') in Hi' as (m' & Em' & Um'). rewrite Em in Em'. injection Em' as <-.
    destruct (Hu i m Em) as (k0 & p0 & _ & _ & U). rewrite (U k p Hp Um), (U k' p' Hp' Um'). reflexivity. }
  assert (Hne : forall k p, nth_error ps k = Some p -> ix p <> ns).
  { intros k p Hp E. destruct Htwo as (k1 & k2 & p1 & p2 & m1 & m2 & Hk12 & Hp1 & Hp2 & Hm1 & Hm2 & U1 & U2).
    assert (X : forall k' p' m', nth_error ps k' = Some p' -> In m' mes -> uses m' (cname p') -> k = k').
    { intros k' p' m' Hp' Hm' U'. apply In_nth_error in Hm' as (i & Ei). assert (A : In i (ix p')) by (apply (HI p'); exists m'; auto).
      apply (Huniq i k k' p p'); [| exact A | exact Hp | exact Hp']. rewrite E. unfold ns. apply in_seq. assert (i < List.length mes) by (apply nth_error_Some; congruence). lia. }
    pose proof (X k1 p1 m1 Hp1 Hm1 U1). pose proof (X k2 p2 m2 Hp2 Hm2 U2). lia. }
  assert (Hcol : forall l, (forall p, In p l -> cprefix p = prefix /\ ix p <> ns) ->
    (Rsum (frac nm g ns) (collect mes mother prefix ns l) = Rsum (fun p => S2 nm g (ix p) (ix p) / N) l)%R /\
    forall p, In p l -> ix p <> [] -> In (FCalc (cname p) (ix p) (ix p)) (collect mes mother prefix ns l)).
  { induction l as [| p l IH]; intro H; cbn [collect]; [split; [reflexivity | intros p []]|]. destruct (H p (or_introl eq_refl)) as [H1 H2].
    destruct (IH (fun q Hq => H q (or_intror Hq))) as [A B]. rewrite H1, str_eqb_refl. cbn [negb]. rewrite andb_false_r. fold (ix p).
    unfold list_eqb. destruct (list_eq_dec Nat.eq_dec (ix p) ns) as [|_]; [contradiction|]. rewrite orb_false_r. destruct (ix p) as [| i0 is0] eqn:Ei.
    - cbn [List.length Nat.eqb]. split; [rewrite A; change (Rsum (fun p => S2 nm g (ix p) (ix p) / N)%R (p :: l)) with (S2 nm g (ix p) (ix p) / N + Rsum (fun p => S2 nm g (ix p) (ix p) / N) l)%R; rewrite Ei; unfold S2 at 2; cbn; unfold Rdiv; ring|].
      intros q [<-|Hq] Hqn; [contradiction | apply B; assumption].
    - cbn [List.length Nat.eqb]. rewrite <- Ei. split.
      + change (Rsum (frac nm g ns) (?a :: ?b)) with (frac nm g ns a + Rsum (frac nm g ns) b)%R. unfold Rsum in *. cbn [fold_right]. rewrite A. unfold frac. cbn [fi fj]. rewrite HN. reflexivity.
      + intros q [<-|Hq] Hqn; [left; reflexivity | right; apply B; assumption]. }
  assert (Hins : forall h ns' l, Forall (inside g) (collect mes h prefix ns' l)).
  { intros h ns'. induction l as [| p l IH]; cbn [collect]; [constructor|]. destruct (str_eqb (chead p) h && negb (str_eqb (cprefix p) prefix)); [exact IH|]. destruct ((_ =? 0) || _); [exact IH|]. constructor; [split; apply HR | exact IH]. }
  assert (Hint : forall l, Forall (inside g) (interference mes l) /\ (Rsum (frac nm g ns) (interference mes l) = pair_sum (S2 nm g) (map ix l) / N)%R).
  { induction l as [| p l [A B]]; cbn [interference map pair_sum]; [split; [constructor | unfold Rsum, Rdiv; cbn; ring]|]. split.
    - apply Forall_app. split; [| exact A]. apply Forall_forall. intros c Hc. apply in_map_iff in Hc as (q & <- & _). split; apply HR.
    - rewrite rsum_app, B, rsum_map. rewrite rsum_map. unfold frac. cbn [fi fj]. rewrite HN. fold (ix p). rewrite (rsum_div (fun q => S2 nm g (ix p) (ix q))). unfold Rdiv. ring. }
  assert (Hall : forall p, In p ps -> cprefix p = prefix /\ ix p <> ns). { intros p Hp. split; [apply Hpre; exact Hp|]. apply In_nth_error in Hp as (k & Ek). apply (Hne k p Ek). }
  destruct (Hcol ps Hall) as [Csum Cin].
  assert (Hblk : forall l, exists out, blocks nm g errors mes mother prefix l = Ok out /\ forall h qs, In (h, qs) l -> collect mes mother prefix (findIndices mes h) qs <> [] ->
    exists fs e, (forall f, In f fs -> In f out) /\ calculate nm g errors h (findIndices mes h) (collect mes mother prefix (findIndices mes h) qs) = Ok fs /\ e = 0%R).
  { induction l as [| [h qs] l (out & A & B)]; cbn [blocks]; [exists []; split; [reflexivity | intros h qs []]|].
    destruct (collect mes mother prefix (findIndices mes h) qs) as [| c cs] eqn:Ec.
    - exists out. split; [exact A|]. intros h' qs' [E|H] Hn'; [injection E as <- <-; congruence | apply B; assumption].
    - rewrite <- Ec. destruct (calculate_ok nm g Hn errors h (findIndices mes h) (collect mes mother prefix (findIndices mes h) qs)) as (fs & fs' & e & X & _); [apply He | apply HRn | apply Hins |].
      rewrite X. cbn [bind]. rewrite A. cbn [bind]. eexists. split; [reflexivity|]. intros h' qs' [E|H] Hn'.
      + injection E as <- <-. eexists. exists 0%R. split; [| split; [exact X | reflexivity]]. intros f Hf. apply in_app_iff. left. exact Hf.
      + destruct (B h' qs' H Hn') as (fs0 & e0 & Y1 & Y2). exists fs0, e0. split; [| exact Y2]. intros f Hf. apply in_app_iff. right. apply Y1. exact Hf. }
  destruct (Hblk rs) as (out & Hout & Hb). destruct Htwo as (k1 & k2 & p1 & p2 & m1 & m2 & Hk12 & Hp1 & Hp2 & Hm1 & Hm2 & U1 & U2).
  assert (Hnz : forall p m, In m mes -> uses m (cname p) -> ix p <> []).
  { intros p m Hm U E. apply In_nth_error in Hm as (i & Ei). assert (X : In i (ix p)) by (apply (HI p); exists m; auto). rewrite E in X. destruct X. }
  specialize (Hb mother ps Hin). rewrite HNS in Hb. destruct Hb as (fs & _ & Hfs & Hcalc & _).
  { intro E. pose proof (Cin p1 (nth_error_In _ _ Hp1) (Hnz p1 m1 Hm1 U1)) as X. rewrite E in X. destruct X. }
  destruct (calculate_ok nm g Hn errors mother ns (collect mes mother prefix ns ps) (He _ _) HRs (Hins _ _ _)) as (f1 & f1' & e1 & X1 & X2 & X3 & X4 & X5).
  rewrite X1 in Hcalc. injection Hcalc as <-.
  assert (Hrule : rulesForDecay rs mother prefix = ps).
  { unfold rulesForDecay. rewrite (lookup_in rs mother ps Hk Hin). destruct prefix as [| c0 pr]; [reflexivity|]. clear - Hpre. induction ps as [| p ps IH]; [reflexivity|]. cbn [filter].
    rewrite (Hpre p (or_introl eq_refl)), str_eqb_refl. f_equal. apply IH. intros q Hq. apply Hpre. right. exact Hq. }
  destruct (calculate_ok nm g Hn errors (mother ++ S_ "_interference") ns (interference mes ps) (He _ _) HRs (proj1 (Hint ps))) as (f2 & f2' & e2 & Y1 & Y2 & Y3 & Y4 & Y5).
  exists (out ++ f2'), (Rsum (frac nm g ns) (collect mes mother prefix ns ps)), e1, (Rsum (frac nm g ns) (interference mes ps)), e2. split; [| split; [| split]].
  - unfold fitFractions. rewrite Hout. cbn [bind]. rewrite HNS, Hrule, Y1. cbn [bind]. rewrite app_assoc. reflexivity.
  - apply in_app_iff. left. apply Hfs. apply in_app_iff. right. left. reflexivity.
  - rewrite Csum, (proj2 (Hint ps)), (rsum_div (fun p => S2 nm g (ix p) (ix p))).
    pose proof (s2_groups nm g Hn (map ix ps)) as G. rewrite rsum_map in G.
    assert (P : Permutation ns (List.concat (map ix ps))).
    { apply NoDup_Permutation; [apply seq_NoDup | |].
      - apply nodup_concat; [intros a Ha; apply in_map_iff in Ha as (p & <- & _); apply sorted_nodup, (HI p)|]. intros i j a b x Ha Hb' Hxa Hxb.
        rewrite nth_error_map in Ha, Hb'. destruct (nth_error ps i) as [pi|] eqn:Ei; [| discriminate]. destruct (nth_error ps j) as [pj|] eqn:Ej; [| discriminate]. injection Ha as <-. injection Hb' as <-.
        exact (Huniq x i j pi pj Hxa Hxb Ei Ej).
      - intro i. unfold ns. rewrite in_seq, in_concat. split.
        + intros [_ Hi]. destruct (nth_error mes i) as [m|] eqn:Em; [| apply nth_error_None in Em; cbn in Hi; lia]. destruct (Hu i m Em) as (k & p & Hp & U & _).
          exists (ix p). split; [apply in_map; apply nth_error_In in Hp; exact Hp | apply (HI p); exists m; auto].
        + intros (a & Ha & Hi). apply in_map_iff in Ha as (p & <- & _). apply (HI p) in Hi as (m & Em & _). assert (i < List.length mes) by (apply nth_error_Some; congruence). cbn. lia. }
    rewrite (s2_perm nm g _ _ _ _ P P), G in HN. { rewrite <- HN in *. field. exact N0. }
    apply Forall_forall. intros a Ha. apply in_map_iff in Ha as (p & <- & _). apply HR.
  - intros p m Hp Hm U. pose proof (Cin p Hp (Hnz p m Hm U)) as Hc.
    assert (F : exists f, In f f1 /\ frname f = cname p /\ value f = frac nm g ns (FCalc (cname p) (ix p) (ix p))).
    { clear - X4 Hc. induction X4 as [| c f cs fs [A B] _ IH]; [destruct Hc|]. destruct Hc as [->|Hc]; [exists f; split; [left; reflexivity | auto]|]. destruct (IH Hc) as (f' & X & Y). exists f'. split; [right; exact X | exact Y]. }
    destruct F as ([n v e] & F1 & F2 & F3). cbn in F2, F3. subst n v. exists (ix p). eexists. exists e. split; [apply HI|]. split.
    + apply in_app_iff. left. apply Hfs. apply in_app_iff. left. apply (Permutation_in _ X2). exact F1.
    + unfold frac. cbn [fi fj]. rewrite HN. field. exact N0.
Qed.
Print Assumptions C104_sum_partial.

(** ** Examples and counterexamples *)
(** Unit couplings and integrals [[1, 0], [0, 1]]. *)
Definition nm2 : list (cplx R) := [(1, 0); (0, 0); (0, 0); (1, 0)]%R.
Definition g2 : list (cplx R) := [(1, 0); (1, 0)]%R.
Definition noerr (ns : list nat) (cs : list fcalc) : list R := repeat 0%R (S (List.length cs)).
Definition pA := S_ "D0{K-,pi+}". Definition pB := S_ "D0{K+,pi-}".
Definition mesAB := [Melem pA [pA]; Melem pB [pB]].
Definition rulesAB : rules_t := [(S_ "D0", [Coupling pA (S_ "D0") []; Coupling pB (S_ "D0") []])].
Lemma not_within l s : has_text s l = false -> ~ within l s.
Proof. intros H W. apply has_text_within in W. congruence. Qed.
Example sum_ex : (forall m, In m mesAB -> within (S_ "D0") (descriptor m)) /\
  (forall i m, nth_error mesAB i = Some m -> exists k p, nth_error [Coupling pA (S_ "D0") []; Coupling pB (S_ "D0") []] k = Some p /\ uses m (cname p) /\
     forall k' p', nth_error [Coupling pA (S_ "D0") []; Coupling pB (S_ "D0") []] k' = Some p' -> uses m (cname p') -> k' = k) /\
  ff_norm R RS nm2 g2 (seq 0 (List.length mesAB)) = Ok (S2 nm2 g2 [0; 1] [0; 1]) /\ S2 nm2 g2 [0; 1] [0; 1] = 2%R.
Proof.
  split; [| split; [| split]].
  - intros m [<-|[<-|[]]]; apply has_text_within; reflexivity.
  - intros [| [| i]] m H; [| | destruct i; discriminate]; injection H as <-.
    + exists 0, (Coupling pA (S_ "D0") []). split; [reflexivity|]. split; [apply contains_uses; reflexivity|]. intros [| [| k]] p' Hp U; [reflexivity | | destruct k; discriminate].
      injection Hp as <-. apply contains_uses in U. discriminate.
    + exists 1, (Coupling pB (S_ "D0") []). split; [reflexivity|]. split; [apply contains_uses; reflexivity|]. intros [| [| k]] p' Hp U; [| reflexivity | destruct k; discriminate].
      injection Hp as <-. apply contains_uses in U. discriminate.
  - apply ff_norm_ok; [reflexivity | repeat constructor].
  - unfold S2, Rsum. cbn. lra.
Qed.

(** With only one decay of the mother no fraction is given at all, where it is one: only the sum of no interference fractions, zero, remains. *)
Theorem C104_single_refuted : exists mes rs, List.length mes = List.length g2 /\ rs = [(S_ "D0", [Coupling (S_ "D0{K-,pi+}") (S_ "D0") []])] /\
  (forall m, In m mes -> uses m (S_ "D0{K-,pi+}")) /\ exists e, fitFractions nm2 g2 noerr mes (S_ "D0") [] rs = Ok [Fraction (S_ "Sum_D0_interference") 0 e].
Proof.
  exists [Melem pA [pA]; Melem (S_ "D0[P]{K-,pi+}") [pA]]. eexists. split; [reflexivity|]. split; [reflexivity|]. split.
  - intros m [<-|[<-|[]]]; apply contains_uses; reflexivity.
  - eexists. reflexivity.
Qed.
Print Assumptions C104_single_refuted.

(** Without a prefix, the decays of the same mother that have one are taken into the interference fractions although they have no amplitudes in this sum; if
    their names are the same, a decay "interferes" with itself, and the sum of fractions and interference exceeds one. *)
Theorem C104_prefix_refuted : exists mes rs s es x ex out, List.length mes = List.length g2 /\
  fitFractions nm2 g2 noerr mes (S_ "D0") [] rs = Ok (out ++ [Fraction (S_ "Sum_D0_interference") x ex]) /\ In (Fraction (S_ "Sum_D0") s es) out /\
  (exists f, In f out /\ frname f = S_ "D0{K-,pi+}xD0{K-,pi+}" /\ value f = (1 / 2)%R) /\ (1 < s + 2 * x)%R.
Proof.
  set (rs := [(S_ "D0", [Coupling pA (S_ "D0") []; Coupling pB (S_ "D0") []; Coupling pA (S_ "D0") (S_ "CP")])] : rules_t).
  assert (Hn : List.length nm2 = List.length g2 * List.length g2) by reflexivity.
  assert (I : Forall (fun i => i < List.length g2) [0; 1]) by (repeat constructor).
  assert (C1 : collect mesAB (S_ "D0") [] [0; 1] (snd (hd (S_ "", []) rs)) = [FCalc pA [0] [0]; FCalc pB [1] [1]]) by reflexivity.
  destruct (calculate_ok nm2 g2 Hn noerr (S_ "D0") [0; 1] [FCalc pA [0] [0]; FCalc pB [1] [1]]) as (f1 & f1' & e1 & X1 & X2 & X3 & X4 & X5);
    [reflexivity | exact I | repeat constructor |].
  destruct (calculate_ok nm2 g2 Hn noerr (S_ "D0_interference") [0; 1] (interference mesAB (rulesForDecay rs (S_ "D0") []))) as (f2 & f2' & e2 & Y1 & Y2 & Y3 & Y4 & Y5);
    [reflexivity | exact I | repeat constructor |].
  exists mesAB, rs. do 4 eexists. exists ((f1' ++ [Fraction (S_ "Sum_D0") (Rsum (frac nm2 g2 [0; 1]) [FCalc pA [0] [0]; FCalc pB [1] [1]]) e1]) ++ f2').
  split; [reflexivity|]. split; [| split; [| split]].
  - unfold fitFractions. assert (B : blocks nm2 g2 noerr mesAB (S_ "D0") [] rs = Ok (f1' ++ [Fraction (S_ "Sum_D0") (Rsum (frac nm2 g2 [0; 1]) [FCalc pA [0] [0]; FCalc pB [1] [1]]) e1])).
    { cbn [rs blocks]. change (findIndices mesAB (S_ "D0")) with [0; 1]. change (collect mesAB (S_ "D0") [] [0; 1] _) with [FCalc pA [0] [0]; FCalc pB [1] [1]]. cbv iota. rewrite X1. cbn [bind]. rewrite app_nil_r. reflexivity. }
    rewrite B. cbn [bind]. change (S_ "D0" ++ S_ "_interference") with (S_ "D0_interference"). change (findIndices mesAB (S_ "D0")) with [0; 1]. rewrite Y1. cbn [bind]. rewrite !app_assoc. reflexivity.
  - apply in_app_iff. left. apply in_app_iff. right. left. reflexivity.
  - inversion Y4 as [| ? ? ? ? _ Y4']; subst. inversion Y4' as [| c f ? ? [F1 F2] _]; subst. exists f. split; [| split; [exact F1|]].
    + apply in_app_iff. right. apply (Permutation_in _ Y2). right. left. reflexivity.
    + rewrite F2. unfold frac, S2, Rsum. cbn. field.
  - assert (T : S2 nm2 g2 [0; 1] [0; 1] = 2%R) by (unfold S2, Rsum; cbn; lra). unfold frac. rewrite T. unfold S2, Rsum. cbn. lra.
Qed.
Print Assumptions C104_prefix_refuted.

(** The amplitudes of a particle are found by its name as part of the descriptor, and Delta(1232)+ is part of Delta(1232)++: the only decay of Delta(1232)+ has
    a fraction of one half of the decays of Delta(1232)+. *)
Theorem C104_name_refuted : exists mes h p, findIndices mes h = [0; 1] /\ processIndex mes p = [1] /\
  collect mes (S_ "Lambda(b)0") [] (findIndices mes h) [Coupling p h []] = [FCalc p [1] [1]] /\
  (forall m, In m mes -> uses m p \/ ~ exists d, within (h ++ S_ "{" ++ d) (descriptor m)) /\ exists v, ff_val R RS nm2 g2 (findIndices mes h) [1] [1] = Ok v /\ v = (1 / 2)%R.
Proof.
  set (p := S_ "Delta(1232)+{p,pi0}").
  exists [Melem (S_ "Lambda(b)0{Delta(1232)++{p,pi+},K-}") [S_ "Lambda(b)0{Delta(1232)++,K-}"; S_ "Delta(1232)++{p,pi+}"];
          Melem (S_ "Lambda(b)0{Delta(1232)+{p,pi0},Kbar0}") [S_ "Lambda(b)0{Delta(1232)+,Kbar0}"; p]], (S_ "Delta(1232)+"), p.
  split; [reflexivity|]. split; [reflexivity|]. split; [reflexivity|]. split.
  - intros m [<-|[<-|[]]]; [right | left; apply contains_uses; reflexivity]. intros (d & a & b & E).
    apply (not_within (S_ "Delta(1232)+{") (S_ "Lambda(b)0{Delta(1232)++{p,pi+},K-}")); [reflexivity|]. exists a, (d ++ b). cbn [descriptor] in E. rewrite E, <- !app_assoc. reflexivity.
  - assert (I : Forall (fun i => i < List.length g2) [0; 1]) by (repeat constructor). assert (J : Forall (fun i => i < List.length g2) [1]) by (repeat constructor).
    change (findIndices _ _) with [0; 1]. eexists. split; [apply ff_val_ok; [reflexivity | exact I | exact J | exact J]|]. unfold S2, Rsum. cbn. field.
Qed.
Print Assumptions C104_name_refuted.

(** findIndex: the first element with the descriptor. *)
Theorem C104_component_partial mes d m : In m mes -> descriptor m = d -> exists m', nth_error mes (findIndex mes d) = Some m' /\ descriptor m' = d /\
  forall i x, i < findIndex mes d -> nth_error mes i = Some x -> descriptor x <> d.
Proof.
  intros H E. unfold findIndex.
  assert (G : forall l k, In m l -> exists m', k <= findIndex_from l d k /\ nth_error l (findIndex_from l d k - k) = Some m' /\ descriptor m' = d /\ forall i x, i < findIndex_from l d k - k -> nth_error l i = Some x -> descriptor x <> d).
  { induction l as [| y l IH]; intros k Hin; [destruct Hin|]. cbn [findIndex_from]. destruct (str_eqb (descriptor y) d) eqn:Ey.
    - exists y. rewrite Nat.sub_diag. split; [lia|]. split; [reflexivity|]. split; [apply str_eqb_eq; exact Ey | intros i x Hi; lia].
    - destruct Hin as [->|Hin]; [rewrite E, str_eqb_refl in Ey; discriminate|]. destruct (IH (S k) Hin) as (m' & A & B & C & D). exists m'. split; [lia|].
      replace (findIndex_from l d (S k) - k) with (S (findIndex_from l d (S k) - S k)) by lia. split; [exact B|]. split; [exact C|]. intros [| i] x Hi Hx; [injection Hx as <-; intro Z; rewrite Z, str_eqb_refl in Ey; discriminate|].
      cbn in Hx. apply (D i x); [lia | exact Hx]. }
  destruct (G mes 0 H) as (m' & _ & B & C & D). rewrite Nat.sub_0_r in *. exists m'. auto.
Qed.
Print Assumptions C104_component_partial.
(** A constraint on a component that does not exist is not refused: the number 999 stands for it, and the value of the constraint is read beyond the end of the
    amplitudes. *)
Theorem C104_component_refuted : exists mes d, (forall m, In m mes -> descriptor m <> d) /\ List.length mes = List.length g2 /\
  Fit.Model.extend (fun _ => g2) (fun _ => nm2) [] (Fit.Model.PartialWidth [findIndex mes d] [0] 1 1) = UB.
Proof.
  exists mesAB, (S_ "D0{K-,K+}"). split; [intros m [<-|[<-|[]]] E; discriminate|]. split; [reflexivity|].
  assert (E : nth_error g2 999 = None) by (apply nth_error_None; cbn; lia).
  unfold Fit.Model.extend, Fit.Model.width. change (findIndex mesAB (S_ "D0{K-,K+}")) with 999. cbn [double_sum sum_over]. unfold Fit.Model.width_term at 1. rewrite E. reflexivity.
Qed.
Print Assumptions C104_component_refuted.
