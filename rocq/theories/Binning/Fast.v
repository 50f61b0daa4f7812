(** Proofs about FastDT. *)
From Verif.Binning Require Import Proofs Trees.
From Verif.Binning Require Export Spec.
Local Open Scope nat_scope.

(** From address [a] the look-up of [e] ends in end node [b]. *)
Definition goes (nodes : list node) (e : event) (a : Z) (b : nat) : Prop :=
  ((a < 0)%Z /\ b = Z.to_nat (Z.abs a - 1)) \/
  ((0 <= a)%Z /\ forall f, (a < Z.of_nat f)%Z -> walk f nodes e a = Ok b).

Lemma goes_cut nodes N i v l r e x b :
  nth_error nodes N = Some {| n_index := S i; n_left := l; n_right := r; n_cut := v |} ->
  nth_error e i = Some x -> (l < Z.of_nat N)%Z -> (r < Z.of_nat N)%Z ->
  goes nodes e (if Qlt_bool v x then r else l) b -> goes nodes e (Z.of_nat N) b.
Proof.
  intros H X Ll Lr G. right. split; [lia|]. intros [|f] F; [lia|]. cbn [walk].
  rewrite (proj2 (Z.ltb_ge (Z.of_nat N) 0)) by lia. rewrite Nat2Z.id, H. cbn [n_index n_cut n_left n_right]. rewrite X.
  assert (LN : N < List.length nodes) by (apply nth_error_Some; congruence).
  set (a := if Qlt_bool v x then r else l) in *. assert (La : (a < Z.of_nat N)%Z) by (unfold a; destruct (Qlt_bool v x); assumption).
  clearbody a. destruct G as [[G ->]|[G W]].
  - now rewrite (proj2 (Z.ltb_lt a 0) G).
  - rewrite (proj2 (Z.ltb_ge a 0) G). rewrite (proj2 (Z.leb_gt _ _)) by lia. apply W. lia.
Qed.

Definition counted (st : fast) : Prop := counter st = (- Z.of_nat (List.length (filled st)))%Z.
Definition root_of (a : Z) (nodes : list node) : Prop := (a < 0 /\ nodes = [])%Z \/ nodes <> [].

(** What a call that starts in [st] and is given the samples [s], [t] does. *)
Definition trains (d : nat) (s t : list event) (st : fast) (a : Z) (st' : fast) (exact : Prop) : Prop :=
  exists newn newf, m_nodes st' = m_nodes st ++ newn /\ filled st' = filled st ++ newf /\ counted st' /\
    (a < Z.of_nat (List.length (m_nodes st')))%Z /\
    ((a < 0)%Z /\ newn = [] \/ newn <> [] /\ a = (Z.of_nat (List.length (m_nodes st')) - 1)%Z) /\
    Permutation (List.concat (map fst newf)) s /\ Permutation (List.concat (map snd newf)) t /\
    (forall ext e, d <= List.length e -> exists b, goes (m_nodes st' ++ ext) e a b /\ b < List.length (filled st')) /\
    (exact -> forall k s' t', nth_error newf k = Some (s', t') -> forall e, In e s' \/ In e t' ->
      forall ext, goes (m_nodes st' ++ ext) e a (List.length (filled st) + k)).

Lemma trains_end d s t st exact : counted st -> exists a st', new_end s t st = Ok (a, st') /\ trains d s t st a st' exact /\ (a < 0)%Z.
Proof.
  intro H. unfold new_end. eexists; eexists; split; [reflexivity|].
  split; [|unfold counted in H; lia]. exists [], [(s, t)]. cbn [m_nodes filled counter]. unfold counted in *.
  rewrite app_nil_r. split; [reflexivity|]. split; [reflexivity|]. cbn [counter filled]. rewrite app_length. cbn [List.length].
  split; [rewrite H; lia|]. split; [lia|]. split; [left; split; [lia|reflexivity]|].
  cbn [map fst snd List.concat]. rewrite !app_nil_r. split; [reflexivity|]. split; [reflexivity|]. split.
  - intros ext e _. exists (List.length (filled st)). split; [|lia]. left. split; lia.
  - intros _ k s' t' Hk e _ ext. destruct k as [|[|k]]; try discriminate. left. split; lia.
Qed.

Lemma trains_cut d i v sl tl sr tr s t st l s1 r s2 (ex1 ex2 exact : Prop) :
  i < d -> Permutation (sl ++ sr) s -> Permutation (tl ++ tr) t ->
  complete d (sl ++ tl) -> complete d (sr ++ tr) ->
  (exact -> ex1 /\ ex2 /\ Forall (fun e => (at_ e i <= v)%Q) (sl ++ tl) /\ Forall (fun e => (v < at_ e i)%Q) (sr ++ tr)) ->
  trains d sl tl st l s1 ex1 -> trains d sr tr s1 r s2 ex2 ->
  exists a st', push_node {| n_index := S i; n_left := l; n_right := r; n_cut := v |} s2 = Ok (a, st') /\ trains d s t st a st' exact /\ (0 <= a)%Z.
Proof.
  intros Hi Ps Pt Cl Cr Hex (n1 & f1 & N1 & F1 & K1 & B1 & _ & A1 & A1' & G1 & T1) (n2 & f2 & N2 & F2 & K2 & B2 & _ & A2 & A2' & G2 & T2).
  unfold push_node. eexists; eexists; split; [reflexivity|]. split; [|lia]. cbn [m_nodes filled counter].
  set (n := {| n_index := S i; n_left := l; n_right := r; n_cut := v |}).
  exists (n1 ++ n2 ++ [n]), (f1 ++ f2). cbn [m_nodes filled].
  split; [now rewrite N2, N1, <- !app_assoc|]. split; [now rewrite F2, F1, <- app_assoc|]. split; [exact K2|].
  rewrite app_length. cbn [List.length]. split; [lia|]. split; [right; split; [now destruct n1, n2|lia]|].
  rewrite !map_app, !concat_app, A1, A1', A2, A2'. split; [exact Ps|]. split; [exact Pt|].
  assert (At : forall ext, nth_error ((m_nodes s2 ++ [n]) ++ ext) (List.length (m_nodes s2)) = Some n).
  { intro ext. rewrite <- app_assoc, nth_error_app2 by lia. now rewrite Nat.sub_diag. }
  assert (L12 : List.length (m_nodes s1) <= List.length (m_nodes s2)) by (rewrite N2, app_length; lia).
  assert (Ex1 : forall ext, exists ext', (m_nodes s2 ++ [n]) ++ ext = m_nodes s1 ++ ext').
  { intro ext. exists (n2 ++ [n] ++ ext). now rewrite N2, <- !app_assoc. }
  assert (Ex2 : forall ext, exists ext', (m_nodes s2 ++ [n]) ++ ext = m_nodes s2 ++ ext').
  { intro ext. exists ([n] ++ ext). now rewrite <- !app_assoc. }
  split.
  - intros ext e He. assert (X : nth_error e i = Some (at_ e i)) by (apply nth_error_nth'; lia).
    assert (Y : exists b, goes ((m_nodes s2 ++ [n]) ++ ext) e (if Qlt_bool v (at_ e i) then r else l) b /\ b < List.length (filled s2)).
    { destruct (Qlt_bool v (at_ e i)).
      - destruct (Ex2 ext) as [x ->]. apply G2. exact He.
      - destruct (Ex1 ext) as [x ->]. destruct (G1 x e He) as (b & Gb & Lb). exists b. split; [exact Gb|]. rewrite F2, app_length. lia. }
    destruct Y as (b & Gb & Lb). exists b. split; [|exact Lb]. apply (goes_cut _ _ i v l r e (at_ e i) b (At ext) X); [lia|lia|exact Gb].
  - intros E k s' t' Hk e He ext. destruct (Hex E) as (E1 & E2 & Fl & Fr).
    assert (in_new : forall f (ev : list event) (g : list event * list event -> list event), Permutation (List.concat (map g f)) ev ->
        forall k, nth_error f k = Some (s', t') -> In e (g (s', t')) -> In e ev).
    { intros f ev g Pn k' Hk' Hg. rewrite <- Pn. apply in_concat. exists (g (s', t')). split; [|exact Hg]. apply in_map. now apply nth_error_In in Hk'. }
    destruct (nth_error_app3 _ _ _ _ Hk) as [[Lk Hk']|[Lk Hk']].
    + assert (In e (sl ++ tl)) by (apply in_or_app; destruct He as [He|He]; [left; apply (in_new f1 sl fst A1 k Hk' He)|right; apply (in_new f1 tl snd A1' k Hk' He)]).
      pose proof (proj1 (Forall_forall _ _) Cl e H) as He'. cbv beta in He'.
      assert (X : nth_error e i = Some (at_ e i)) by (apply nth_error_nth'; lia).
      apply (goes_cut _ _ i v l r e (at_ e i) _ (At ext) X); [lia|lia|].
      rewrite (proj2 (Qlt_bool_false _ _) (proj1 (Forall_forall _ _) Fl e H)).
      destruct (Ex1 ext) as [x ->]. apply (T1 E1 k s' t' Hk' e He).
    + assert (In e (sr ++ tr)) by (apply in_or_app; destruct He as [He|He]; [left; apply (in_new f2 sr fst A2 _ Hk' He)|right; apply (in_new f2 tr snd A2' _ Hk' He)]).
      pose proof (proj1 (Forall_forall _ _) Cr e H) as He'. cbv beta in He'.
      assert (X : nth_error e i = Some (at_ e i)) by (apply nth_error_nth'; lia).
      apply (goes_cut _ _ i v l r e (at_ e i) _ (At ext) X); [lia|lia|].
      rewrite (proj2 (Qlt_bool_true _ _) (proj1 (Forall_forall _ _) Fr e H)).
      destruct (Ex2 ext) as [x ->].
      replace (List.length (filled st) + k) with (List.length (filled s1) + (k - List.length f1)) by (rewrite F1, app_length; lia).
      apply (T2 E2 _ s' t' Hk' e He).
Qed.

  Lemma root_found nodes e b : nodes <> [] -> goes nodes e (Z.of_nat (List.length nodes) - 1) b -> findNode nodes e = Ok b.
  Proof.
    intros N G. unfold findNode. destruct nodes as [|n nodes]; [congruence|]. cbn [List.length] in *.
    destruct G as [[G _]|[_ G]]; [lia|]. apply G. lia.
  Qed.
  Lemma agrees_fast nodes s (newf : list (list event * list event)) (g : list event * list event -> list event) :
    nodes <> [] -> Permutation (List.concat (map g newf)) s ->
    (forall s' t' e, In e (g (s', t')) -> In e s' \/ In e t') ->
    (forall k s' t', nth_error newf k = Some (s', t') -> forall e, In e s' \/ In e t' -> goes nodes e (Z.of_nat (List.length nodes) - 1) k) ->
    agrees (falls_fast nodes) s (map g newf).
  Proof.
    intros N P Hg H b held Hb. transitivity (filter (falls_fast nodes b) (List.concat (map g newf))); [|now apply filter_perm].
    pose proof (concat_filter (falls_fast nodes) (map g newf) 0) as X. cbn [Nat.add] in X. rewrite X with (k := b) (l := held); [reflexivity| |exact Hb]. clear X.
    intros k l Hk x Hx b'. rewrite nth_error_map in Hk. destruct (nth_error newf k) as [[s' t']|] eqn:E; [|discriminate].
    cbn [option_map] in Hk. injection Hk as <-. unfold falls_fast. now rewrite (root_found nodes x k N (H k s' t' E x (Hg _ _ _ Hx))).
  Qed.

Section One.
  Variables (sort : nat -> list event -> list event) (by_variance : list event -> list nat) (c : conf).
  Hypotheses (Hsort : sorts_by sort) (Hvar : orders (dim c) by_variance) (Hd : 0 < dim c) (Hm : 0 < minEvents c).

  Lemma refreshFast_ok evts depth : 2 <= List.length evts -> exists q, refreshFast by_variance c evts depth = Ok q /\ good_queue c q.
  Proof.
    intro L. unfold refreshFast. destruct (_ && _).
    - eexists; split; [reflexivity|]. apply seq_nonempty; [exact Hd|reflexivity].
    - rewrite (proj2 (Nat.eqb_neq (dim c) 0)) by lia. rewrite (proj2 (Nat.ltb_ge _ _) L). eexists; split; [reflexivity|].
      apply seq_nonempty; [exact Hd|apply Hvar].
  Qed.
  Lemma makeFast_ok : forall fuel evts queue depth st, List.length evts < fuel ->
    (good_queue c queue \/ (queue = [] /\ depth = 0 /\ 2 <= List.length evts)) -> complete (dim c) evts -> counted st ->
    exists a st', makeFast sort by_variance c fuel evts queue depth st = Ok (a, st') /\
      trains (dim c) evts [] st a st' (distinct (dim c) evts /\ unaligned (dim c) evts) /\
      (depth <= maxDepth c -> ((0 <= a)%Z <-> 2 * minEvents c <= List.length evts)).
  Proof.
    induction fuel as [|f IH]; intros evts queue depth st L Q C K; [lia|]. cbn [makeFast].
    assert (Eq : exists q, match queue, depth with [], 0 => refreshFast by_variance c evts 1 | _, _ => Ok queue end = Ok q /\ good_queue c q).
    { destruct Q as [Q|(-> & -> & Q)]; [|now apply refreshFast_ok]. exists queue. split; [|exact Q]. destruct Q as [Q _]. destruct queue; [congruence|reflexivity]. }
    destruct Eq as (q & Eq & [Gn Gf]). rewrite Eq. cbn [bind]. destruct q as [|index rest]; [congruence|]. inversion Gf as [|? ? Hi Qr]; subst.
    destruct (_ || _) eqn:E.
    - destruct (trains_end (dim c) evts [] st (distinct (dim c) evts /\ unaligned (dim c) evts) K) as (a & st' & E1 & T1 & Neg). exists a, st'. split; [exact E1|].
      split; [exact T1|]. intros H2. apply orb_true_iff in E as [E|E]; apply Nat.ltb_lt in E; lia.
    - apply orb_false_iff in E as [E1 E2]. apply Nat.ltb_ge in E1, E2.
      destruct (split_ok sort Hsort (dim c) index evts Hi C ltac:(lia)) as (lo & hi & v & Es & P & Llo & Lhi & _ & _ & D).
      rewrite Es. cbn [bind]. pose proof (Permutation_length P) as PL. rewrite app_length in PL.
      assert (Eq' : exists q, match rest with [] => refreshFast by_variance c evts (S depth) | _ => Ok rest end = Ok q /\ good_queue c q).
      { destruct rest as [|r rest]; [apply refreshFast_ok; lia|]. exists (r :: rest). split; [reflexivity|]. split; [discriminate|exact Qr]. }
      destruct Eq' as (q & Eq' & Gq). rewrite Eq'. cbn [bind].
      assert (C' : complete (dim c) (lo ++ hi)) by (apply (complete_perm _ evts); [now symmetry|exact C]). apply complete_app in C' as [Clo Chi].
      destruct (IH lo q (S depth) st ltac:(lia) (or_introl Gq) Clo K) as (l & s1 & B1 & T1 & _). rewrite B1. cbn [bind].
      assert (K1 : counted s1) by (destruct T1 as (n1 & f1 & _ & _ & K1 & _); exact K1).
      destruct (IH hi q (S depth) s1 ltac:(lia) (or_introl Gq) Chi K1) as (r & s2 & B2 & T2 & _). rewrite B2. cbn [bind].
      assert (X : distinct (dim c) evts /\ unaligned (dim c) evts -> (distinct (dim c) lo /\ unaligned (dim c) lo) /\ (distinct (dim c) hi /\ unaligned (dim c) hi) /\
        Forall (fun e => (at_ e index <= v)%Q) (lo ++ []) /\ Forall (fun e => (v < at_ e index)%Q) (hi ++ [])).
      { intros [Dd Du]. destruct (D Dd Du) as [Dl Dr]. rewrite !app_nil_r.
        assert (Dd' : distinct (dim c) (lo ++ hi)) by (apply (distinct_perm _ evts); [now symmetry|exact Dd]). apply distinct_app in Dd' as [D1 D2].
        assert (Du' : unaligned (dim c) (lo ++ hi)) by (apply (unaligned_perm _ evts); [now symmetry|exact Du]). apply unaligned_app in Du' as [U1 U2].
        exact (conj (conj D1 U1) (conj (conj D2 U2) (conj Dl Dr))). }
      assert (Clo' : complete (dim c) (lo ++ [])) by now rewrite app_nil_r. assert (Chi' : complete (dim c) (hi ++ [])) by now rewrite app_nil_r.
      destruct (trains_cut (dim c) index v lo [] hi [] evts [] st l s1 r s2 _ _ _ Hi P (Permutation_refl _) Clo' Chi' X T1 T2) as (a & st' & Ep & T & Pos).
      exists a, st'. split; [exact Ep|]. split; [exact T|]. intros _. tauto.
  Qed.

  Theorem trainFast_ok fuel evts : List.length evts < fuel -> 2 <= List.length evts -> complete (dim c) evts ->
    exists st, trainFast sort by_variance c fuel evts = Ok st /\
      Permutation (List.concat (map fst (filled st))) evts /\
      (m_nodes st <> [] <-> 2 * minEvents c <= List.length evts) /\
      (m_nodes st <> [] -> forall e, dim c <= List.length e -> exists b, findNode (m_nodes st) e = Ok b /\ b < List.length (filled st)) /\
      (m_nodes st <> [] -> distinct (dim c) evts -> unaligned (dim c) evts -> agrees (falls_fast (m_nodes st)) evts (map fst (filled st))).
  Proof.
    intros Lf L C. unfold trainFast.
    destruct (makeFast_ok fuel evts [] 0 fast0 Lf (or_intror (conj eq_refl (conj eq_refl L))) C eq_refl) as (a & st & -> & T & Pos). cbn [bind snd].
    exists st. split; [reflexivity|]. destruct T as (newn & newf & N & F & K & B & R & P & _ & G & X). cbn [m_nodes filled fast0 app] in *.
    specialize (Pos ltac:(lia)). rewrite N, F in *. split; [exact P|]. split; [|split].
    - rewrite <- Pos. destruct R as [[R ->]|[R ->]]; split; intro H; try congruence; try lia. destruct newn; [congruence|cbn [List.length]; lia].
    - intros H e He. destruct (G [] e He) as (b & Gb & Lb). exists b. split; [|exact Lb]. rewrite app_nil_r in Gb.
      destruct R as [[_ R]|[_ ->]]; [congruence|]. now apply root_found.
    - intros H Dd Du. apply (agrees_fast newn); [exact H|exact P|cbn; tauto|].
      intros k s' t' Hk e He. destruct R as [[_ R]|[_ ->]]; [congruence|]. specialize (X (conj Dd Du) k s' t' Hk e He []).
      now rewrite app_nil_r in X.
  Qed.
End One.

Section Two.
  Variables (sort : nat -> list event -> list event) (c : conf).
  Variables (shuffled : list event -> nat -> list nat) (cut : list event -> list event -> nat -> option Q).
  Hypotheses (Hsort : sorts_by sort) (Hsh : forall l n, Permutation (shuffled l n) (seq 0 (dim c))) (Hd : 0 < dim c) (Hm : 0 < minEvents c).

  Definition good_marks (q : list (option nat)) : Prop := Forall (fun o => match o with Some i => i < dim c | None => True end) q.
  Lemma first_ok q : good_marks q -> forallb (fun o => match o with None => true | Some _ => false end) q = false ->
    exists i q', first_unused q = Some (i, q') /\ i < dim c /\ good_marks q'.
  Proof.
    induction 1 as [|o q H F IH]; [discriminate|]. destruct o as [i|]; cbn [forallb first_unused].
    - intros _. exists i, (None :: q). split; [reflexivity|]. split; [exact H|]. now constructor.
    - intro E. destruct (IH E) as (i & q' & -> & Hi & G). exists i, (None :: q'). split; [reflexivity|]. split; [exact Hi|]. now constructor.
  Qed.
  Lemma fresh_marks l n : good_marks (map Some (shuffled l n)) /\ forallb (fun o : option nat => match o with None => true | Some _ => false end) (map Some (shuffled l n)) = false.
  Proof.
    destruct (seq_nonempty (dim c) _ Hd (Hsh l n)) as [N F]. split.
    - unfold good_marks. apply Forall_map. exact F.
    - destruct (shuffled l n); [congruence|reflexivity].
  Qed.
  Lemma upto_cut_ok i v l : Forall (fun e => (at_ e i <= v)%Q) (take_while (upto_cut i v) (sort i l)) /\ Forall (fun e => (v < at_ e i)%Q) (drop_while (upto_cut i v) (sort i l)).
  Proof.
    destruct (Hsort i l) as [_ So]. split.
    - eapply Forall_impl; [|apply take_true]. intros e. apply Qle_bool_iff.
    - eapply Forall_impl; [|eapply drop_false; [exact So|]].
      + intros e He. cbv beta in He. unfold upto_cut in He. apply Qlt_bool_true. unfold Qlt_bool. now rewrite He.
      + intros a b R E. unfold upto_cut in *. destruct (Qle_bool (at_ b i) v) eqn:E'; [|reflexivity]. apply Qle_bool_iff in E'.
        rewrite <- E. symmetry. apply Qle_bool_iff. now apply Qle_trans with (at_ b i).
  Qed.
  Lemma makeFast2_ok : forall fuel src tgt queue depth st, List.length src < fuel -> good_marks queue ->
    complete (dim c) src -> complete (dim c) tgt -> counted st ->
    exists a st', makeFast2 sort c shuffled cut fuel Random src tgt queue depth st = Ok (a, st') /\ trains (dim c) src tgt st a st' True.
  Proof.
    induction fuel as [|f IH]; intros src tgt queue depth st L Q Cs Ct K; [lia|]. cbn [makeFast2].
    assert (stop : exists a st', new_end src tgt st = Ok (a, st') /\ trains (dim c) src tgt st a st' True).
    { destruct (trains_end (dim c) src tgt st True K) as (a & st' & E1 & T1 & _). exists a, st'. now split. }
    destruct (_ || _ || _) eqn:E; [exact stop|]. cbv zeta.
    set (q := if forallb _ queue then _ else _).
    assert (Gq : good_marks q /\ forallb (fun o : option nat => match o with None => true | Some _ => false end) q = false).
    { unfold q. destruct (forallb _ queue) eqn:Ef; [apply fresh_marks|]. now split. }
    clearbody q. destruct Gq as [Gq Eq]. destruct (first_ok q Gq Eq) as (i & q' & -> & Hi & Gq').
    rewrite (readable_complete i (dim c) src Hi Cs), (readable_complete i (dim c) tgt Hi Ct). cbn [andb].
    destruct (cut (sort i src) (sort i tgt) i) as [v|]; [|exact stop].
    destruct (upto_cut_ok i v src) as [Sl Sr]. destruct (upto_cut_ok i v tgt) as [Tl Tr].
    pose proof (take_drop (upto_cut i v) (sort i src)) as Ps. pose proof (take_drop (upto_cut i v) (sort i tgt)) as Pt.
    destruct (Hsort i src) as [Pss _]. destruct (Hsort i tgt) as [Ptt _].
    set (sl := take_while (upto_cut i v) (sort i src)) in *. set (sr := drop_while (upto_cut i v) (sort i src)) in *.
    set (tl := take_while (upto_cut i v) (sort i tgt)) in *. set (tr := drop_while (upto_cut i v) (sort i tgt)) in *.
    clearbody sl sr tl tr. destruct (_ || _) eqn:E' in |- *; [exact stop|]. clear stop.
    apply orb_false_iff in E' as [El Er]. apply Nat.eqb_neq in El, Er.
    assert (P1 : Permutation (sl ++ sr) src) by now rewrite Ps. assert (P2 : Permutation (tl ++ tr) tgt) by now rewrite Pt.
    pose proof (Permutation_length P1) as PL. rewrite app_length in PL.
    assert (Cs' : complete (dim c) (sl ++ sr)) by (apply (complete_perm _ src); [now symmetry|exact Cs]). apply complete_app in Cs' as [Csl Csr].
    assert (Ct' : complete (dim c) (tl ++ tr)) by (apply (complete_perm _ tgt); [now symmetry|exact Ct]). apply complete_app in Ct' as [Ctl Ctr].
    destruct (IH sl tl q' (S depth) st ltac:(lia) Gq' Csl Ctl K) as (l & s1 & B1 & T1). rewrite B1. cbn [bind].
    assert (K1 : counted s1) by (destruct T1 as (n1 & f1 & _ & _ & K1 & _); exact K1).
    destruct (IH sr tr q' (S depth) s1 ltac:(lia) Gq' Csr Ctr K1) as (r & s2 & B2 & T2). rewrite B2. cbn [bind].
    assert (X : True -> True /\ True /\ Forall (fun e => (at_ e i <= v)%Q) (sl ++ tl) /\ Forall (fun e => (v < at_ e i)%Q) (sr ++ tr)).
    { intros _. repeat split; apply Forall_app; split; assumption. }
    destruct (trains_cut (dim c) i v sl tl sr tr src tgt st l s1 r s2 _ _ _ Hi P1 P2
      (proj2 (complete_app _ _ _) (conj Csl Ctl)) (proj2 (complete_app _ _ _) (conj Csr Ctr)) X T1 T2) as (a & st' & Ep & T & _).
    exists a, st'. split; [exact Ep|exact T].
  Qed.

  Theorem trainFast2_ok fuel src tgt : List.length src < fuel -> complete (dim c) src -> complete (dim c) tgt ->
    exists st, trainFast2 sort c shuffled cut fuel Random src tgt = Ok st /\
      Permutation (List.concat (map fst (filled st))) src /\ Permutation (List.concat (map snd (filled st))) tgt /\
      (m_nodes st <> [] ->
        (forall e, dim c <= List.length e -> exists b, findNode (m_nodes st) e = Ok b /\ b < List.length (filled st)) /\
        agrees (falls_fast (m_nodes st)) src (map fst (filled st)) /\ agrees (falls_fast (m_nodes st)) tgt (map snd (filled st))).
  Proof.
    intros Lf Cs Ct. unfold trainFast2.
    destruct (makeFast2_ok fuel src tgt (map Some (shuffled src 0)) 0 fast0 Lf (proj1 (fresh_marks src 0)) Cs Ct eq_refl) as (a & st & -> & T). cbn [bind snd].
    exists st. split; [reflexivity|]. destruct T as (newn & newf & N & F & K & B & R & P & P' & G & X). cbn [m_nodes filled fast0 app] in *.
    rewrite N, F in *. split; [exact P|]. split; [exact P'|]. intro H. destruct R as [[_ R]|[_ ->]]; [congruence|].
    assert (Y : forall k s' t', nth_error newf k = Some (s', t') -> forall e, In e s' \/ In e t' -> goes newn e (Z.of_nat (List.length newn) - 1) k).
    { intros k s' t' Hk e He. specialize (X I k s' t' Hk e He []). now rewrite app_nil_r in X. }
    split; [|split].
    - intros e He. destruct (G [] e He) as (b & Gb & Lb). exists b. split; [|exact Lb]. rewrite app_nil_r in Gb. now apply root_found.
    - apply (agrees_fast newn); [exact H|exact P|cbn; tauto|exact Y].
    - apply (agrees_fast newn); [exact H|exact P'|cbn; tauto|exact Y].
  Qed.
End Two.
