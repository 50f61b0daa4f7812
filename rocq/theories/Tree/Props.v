(** C95: comparing decays. C96: copying and expanding them. C97: reducing them to quasi-stable particles. *)
From Verif.Common Require Import Prelude Writes.
From Coq Require Import Permutation.
From Verif.Tree Require Import Model Spec Proofs Memory Quasi.

(** Two decays match exactly if and only if names, orbital angular momenta and polarisations agree everywhere. *)
Theorem C95_exact : forall a b, matches a b = Exact <-> same_decay a b.
Proof. exact matches_exact. Qed.
Print Assumptions C95_exact.
(** Each of the other flags is set if and only if somewhere two particles that face each other differ in that way. *)
Theorem C95_flags : forall a b,
  (N.land (matches a b) None_ <> 0%N <-> somewhere other_particles a b) /\ (N.land (matches a b) PartialExpansion <> 0%N <-> somewhere expanded_once a b) /\
  (N.land (matches a b) DifferentOrbital <> 0%N <-> somewhere other_orbital a b) /\ (N.land (matches a b) DifferentPolarisation <> 0%N <-> somewhere other_polarisation a b).
Proof.
  intros a b. destruct (matches_flags a b) as (G & F0 & F2 & F3 & F4). rewrite <- F0, <- F2, <- F3, <- F4. destruct G as (n & e & p & o & q & -> & ->).
  destruct n, p, o, q; cbn; repeat split; intro; (reflexivity || discriminate || congruence).
Qed.
Print Assumptions C95_flags.
(** It does not matter which is compared with which. *)
Theorem C95_symmetric : forall a b, matches a b = matches b a.
Proof. exact matches_sym. Qed.
Print Assumptions C95_symmetric.
(** The channel found is the first that is the same decay; without one the program ends. *)
Theorem C95_channel : forall p channels,
  (forall k, find_channel_index p channels = Ok k <-> exists c, nth_error channels k = Some c /\ same_decay p c /\ forall i c', i < k -> nth_error channels i = Some c' -> ~ same_decay p c') /\
  (find_channel_index p channels = Throw <-> forall c, In c channels -> ~ same_decay p c).
Proof.
  intros p cs. split.
  - intro k. unfold find_channel_index. rewrite find_from_ok. rewrite Nat.sub_0_r. split; intros (c & H).
    + exists c. destruct H as (_ & H & Sc & F). repeat split; try assumption. intros i c' Hi. specialize (F i c'). rewrite Nat.sub_0_r in F. apply F. lia.
    + exists c. destruct H as (H & Sc & F). repeat split; try assumption; try lia. intros i c' Hi. rewrite Nat.sub_0_r. apply F. lia.
  - unfold find_channel_index. generalize 0. induction cs as [|c cs IH]; intro n; cbn.
    + split; [intros _ c []|reflexivity].
    + destruct (N.eqb_spec (matches p c) Exact) as [E|E]; rewrite matches_exact in E.
      * split; [discriminate|]. intro H. exfalso. exact (H c (or_introl eq_refl) E).
      * rewrite IH. split; [intros H c' [<-|I]; [exact E|now apply H]|]. intros H c' I. apply H. now right.
Qed.
Print Assumptions C95_channel.

Definition it n l p := {| name := S_ n; orbital := l; pol := p; index := 999; other := [] |}.
Definition leaf n := Node (it n 0 0%Z) [].
Definition rho2pi l := Node (it "rho(770)0" l 0%Z) [leaf "pi+"; leaf "pi-"].
Definition rhoKK l := Node (it "rho(770)0" l 0%Z) [leaf "K+"; leaf "K-"].
(** Decays to different particles are not answered with None: the flag is one among others. *)
Theorem C95_mismatch_refuted : exists a b, somewhere other_particles a b /\ matches a b <> None_.
Proof.
  exists (rho2pi 0), (rhoKK 1). split; [|discriminate]. exists (leaf "pi+"), (leaf "K+"). split; [|left; discriminate].
  apply (facing_below _ _ (leaf "pi+") (leaf "K+") 0); try reflexivity. constructor.
Qed.
Print Assumptions C95_mismatch_refuted.
(** Line shapes, vertices and spin configurations are not compared: a channel that differs in one of these only is taken for the other. *)
Theorem C95_shape_refuted : exists p c1 c2, p = c2 /\ c1 <> c2 /\ find_channel_index p [c1; c2] = Ok 0.
Proof.
  exists (Node {| name := S_ "K(1)(1270)+"; orbital := 0; pol := 0; index := 999; other := S_ "S2" |} [leaf "rho(770)0"; leaf "K+"]),
         (Node {| name := S_ "K(1)(1270)+"; orbital := 0; pol := 0; index := 999; other := S_ "S1" |} [leaf "rho(770)0"; leaf "K+"]),
         (Node {| name := S_ "K(1)(1270)+"; orbital := 0; pol := 0; index := 999; other := S_ "S2" |} [leaf "rho(770)0"; leaf "K+"]).
  split; [reflexivity|]. split; [discriminate|reflexivity].
Qed.
Print Assumptions C95_shape_refuted.
Example matches_meet : same_decay (rho2pi 1) (rho2pi 1) /\ matches (rho2pi 1) (leaf "rho(770)0") = PartialExpansion /\ matches (rho2pi 1) (rho2pi 2) = DifferentOrbital /\
  find_channel_index (rho2pi 1) [rhoKK 1; rho2pi 1] = Ok 1.
Proof. split; [apply matches_exact; reflexivity|]. repeat split. Qed.

(** A clone is the same decay in memory of its own, none of it used twice. *)
Theorem C96_clone : forall h n t fp, holds h n t fp ->
  exists h' n' fp', clone (height t) h n = Ok (h', n') /\ holds h' n' t fp' /\ holds h' n t fp /\ NoDup fp' /\ (forall k, In k fp' -> ~ In k fp).
Proof.
  intros h n t fp H. destruct (clone_ok (height t) h n t fp H (le_n _)) as ([h' n'] & E & fp' & e & Eh & H' & N & B & _). cbn [fst snd] in *. subst h'.
  exists (h ++ e), n', fp'. split; [exact E|]. split; [exact H'|]. split; [now apply holds_app|]. split; [exact N|]. intros k I J. apply B in I. apply (proj1 (bounded h) n t fp H) in J. lia.
Qed.
Print Assumptions C96_clone.
(** Whatever is done to the particles of the one, the other stays what it was. *)
Theorem C96_independent : forall h n t fp h' n', holds h n t fp -> clone (height t) h n = Ok (h', n') ->
  exists fp', holds h' n' t fp' /\ forall h2, ((forall k, ~ In k fp' -> nth_error h2 k = nth_error h' k) -> holds h2 n t fp) /\ ((forall k, ~ In k fp -> nth_error h2 k = nth_error h' k) -> holds h2 n' t fp').
Proof.
  intros h n t fp h' n' H E. destruct (C96_clone h n t fp H) as (h1 & n1 & fp' & E1 & H1 & H0 & _ & D). rewrite E in E1. injection E1 as <- <-.
  exists fp'. split; [exact H1|]. intro h2. split; intro A.
  - apply (proj1 (frame h') n t fp H0). intros k I. apply A. intro J. exact (D k J I).
  - apply (proj1 (frame h') n' t fp' H1). intros k I. apply A. intro J. exact (D k I J).
Qed.
Print Assumptions C96_independent.
(** For a decay none of whose particles is shared, expanding replaces the first particle of that name without daughters, and nothing if there is none; the
    rest of the memory is left alone. *)
Theorem C96_expand : forall h n t fp p tp fpp, holds h n t fp -> NoDup fp -> holds h p tp fpp -> (forall k, In k fp -> ~ In k fpp) ->
  (below (name (item_of tp)) t -> exists h' n' t' fp', expand (height t) h n p = Ok (h', n', true) /\ holds h' n' t' fp' /\ replaced tp t t' /\
     (exists l r, ends t = l ++ name (item_of tp) :: r /\ ends t' = l ++ ends tp ++ r /\ ~ In (name (item_of tp)) l) /\
     (forall k, ~ In k fp -> k < List.length h -> nth_error h' k = nth_error h k)) /\
  (~ below (name (item_of tp)) t -> expand (height t) h n p = Ok (h, n, false)).
Proof.
  intros h n t fp p tp fpp H N Hp D. destruct (expand_ok (height t) h n p t fp tp fpp H N Hp D (le_n _)) as ([[h' n'] w] & E & _ & _ & O). rewrite E. split.
  - intro B. destruct w; [|now destruct O as (_ & _ & O)]. destruct O as (_ & Fr & t' & fp' & H' & R & _). exists h', n', t', fp'. repeat split; try assumption. now apply replaced_ends.
  - intro B. destruct w; [|now destruct O as (-> & -> & _)]. exfalso. destruct O as (_ & _ & t' & fp' & _ & R & _). apply B. clear -R. induction R as [i l d r _ [A1 A2]|i l d d' r _ _ _ IH].
    + apply (below_here _ i _ d); [apply in_or_app; right; now left|exact A1|exact A2].
    + apply (below_deep _ i _ d); [apply in_or_app; right; now left|exact IH].
Qed.
Print Assumptions C96_expand.

Definition nd n ks := {| what := it n 0 0%Z; kids := ks; cached := [] |}.
(** A copy is not independent: a change of a decay product of the copy changes the decay that was copied. *)
Theorem C96_copy_refuted : exists h n t fp k, holds h n t fp /\ NoDup fp /\ In k (kids (copy n)) /\ exists t', holds (set_pol h k 1%Z) n t' fp /\ t' <> t.
Proof.
  exists [nd "p" []; nd "pi-" []], (nd "Lambda0" [0; 1]), (Node (it "Lambda0" 0 0%Z) [leaf "p"; leaf "pi-"]), [0; 1], 0.
  assert (H : forall h z, nth_error h 0 = Some {| what := it "p" 0 z; kids := []; cached := [] |} -> nth_error h 1 = Some (nd "pi-" []) ->
     holds h (nd "Lambda0" [0; 1]) (Node (it "Lambda0" 0 0%Z) [Node (it "p" 0 z) []; leaf "pi-"]) [0; 1]).
  { intros h z E0 E1. change (it "Lambda0" 0 0%Z) with (what (nd "Lambda0" [0; 1])). constructor. cbn. change [0; 1] with (0 :: [] ++ (1 :: [] ++ [])).
    apply (holds_cons _ _ _ {| what := it "p" 0 z; kids := []; cached := [] |}); [exact E0|change (it "p" 0 z) with (what {| what := it "p" 0 z; kids := []; cached := [] |}); constructor; constructor|].
    apply (holds_cons _ _ _ (nd "pi-" [])); [exact E1|unfold leaf; change (it "pi-" 0 0%Z) with (what (nd "pi-" [])); constructor; constructor|constructor]. }
  split; [now apply H|]. split; [repeat constructor; cbn; intuition discriminate|]. split; [now left|]. exists (Node (it "Lambda0" 0 0%Z) [Node (it "p" 0 1%Z) []; leaf "pi-"]).
  split; [now apply H|]. intro E. discriminate.
Qed.
Print Assumptions C96_copy_refuted.
(** The descriptor of a decay is not made again when it is expanded. *)
Theorem C96_descriptor_refuted : exists h n t p h' n' t', holds h n t [0; 1] /\ cached n = text t /\ expand 3 h n p = Ok (h', n', true) /\ (exists fp', holds h' n' t' fp') /\ cached n' <> text t'.
Proof.
  exists [nd "rho(770)0" []; nd "K+" []; nd "pi+" []; nd "pi-" []], {| what := it "D+" 0 0%Z; kids := [0; 1]; cached := S_ "D+{rho(770)0,K+,}" |}, (Node (it "D+" 0 0%Z) [leaf "rho(770)0"; leaf "K+"]),
    (nd "rho(770)0" [2; 3]). eexists. eexists. exists (Node (it "D+" 0 0%Z) [rho2pi 0; leaf "K+"]).
  assert (L : forall h k x, nth_error h k = Some (nd x []) -> holds h (nd x []) (leaf x) []) by (intros h k x _; unfold leaf; change (it x 0 0%Z) with (what (nd x [])); constructor; constructor).
  split. { apply (holds_node _ {| what := it "D+" 0 0%Z; kids := [0; 1]; cached := S_ "D+{rho(770)0,K+,}" |}). cbn. change [0; 1] with (0 :: [] ++ (1 :: [] ++ [])).
    apply (holds_cons _ _ _ (nd "rho(770)0" [])); [reflexivity|now apply (L _ 0)|]. apply (holds_cons _ _ _ (nd "K+" [])); [reflexivity|now apply (L _ 1)|constructor]. }
  split; [reflexivity|]. split; [reflexivity|]. split.
  - eexists. apply (holds_node _ {| what := it "D+" 0 0%Z; kids := [4; 1]; cached := _ |}). cbn. eapply holds_cons; [reflexivity| |].
    + unfold rho2pi. apply (holds_node _ (nd "rho(770)0" [2; 3])). cbn. eapply holds_cons; [reflexivity|now apply (L _ 2)|]. eapply holds_cons; [reflexivity|now apply (L _ 3)|constructor].
    + eapply holds_cons; [reflexivity|now apply (L _ 1)|constructor].
  - discriminate.
Qed.
Print Assumptions C96_descriptor_refuted.
(** Two particles expanded with the same decay share its products. *)
Theorem C96_shared_refuted : exists h n p h1 n1 h2 n2 t fp, expand 3 h n p = Ok (h1, n1, true) /\ expand 3 h1 n1 p = Ok (h2, n2, true) /\ holds h2 n2 t fp /\ ~ NoDup fp /\ ends t = map S_ ["pi+"; "pi-"; "pi+"; "pi-"]%string.
Proof.
  exists [nd "rho(770)0" []; nd "rho(770)0" []; nd "pi+" []; nd "pi-" []], (nd "D0" [0; 1]), (nd "rho(770)0" [2; 3]). do 4 eexists. exists (Node (it "D0" 0 0%Z) [rho2pi 0; rho2pi 0]). eexists.
  split; [reflexivity|]. split; [reflexivity|].
  assert (L : forall h x, holds h (nd x []) (leaf x) []) by (intros h x; unfold leaf; change (it x 0 0%Z) with (what (nd x [])); constructor; constructor).
  split; [|split].
  - apply (holds_node _ {| what := it "D0" 0 0%Z; kids := [4; 5]; cached := _ |}). cbn. eapply holds_cons; [reflexivity| |eapply holds_cons; [reflexivity| |constructor]];
      (unfold rho2pi; apply (holds_node _ (nd "rho(770)0" [2; 3])); cbn; eapply holds_cons; [reflexivity|apply L|]; eapply holds_cons; [reflexivity|apply L|constructor]).
  - cbn. intro N. inversion N as [|? ? _ N1]; subst. inversion N1 as [|? ? X _]; subst. apply X. cbn. tauto.
  - reflexivity.
Qed.
Print Assumptions C96_shared_refuted.
(** D0 -> rho0 K*0 in memory, and a decay of the rho0 for it. *)
Example expand_meets : let h := [nd "rho(770)0" []; nd "K+" []; nd "pi+" []; nd "pi-" []] in
  exists t tp, holds h (nd "D+" [0; 1]) t [0; 1] /\ holds h (nd "rho(770)0" [2; 3]) tp [2; 3] /\ NoDup [0; 1] /\ (forall k, In k [0; 1] -> ~ In k [2; 3]) /\ below (name (item_of tp)) t.
Proof.
  cbv zeta. exists (Node (it "D+" 0 0%Z) [leaf "rho(770)0"; leaf "K+"]), (rho2pi 0).
  assert (L : forall h x, holds h (nd x []) (leaf x) []) by (intros h x; unfold leaf; change (it x 0 0%Z) with (what (nd x [])); constructor; constructor).
  split; [|split; [|split; [|split]]].
  - apply (holds_node _ (nd "D+" [0; 1])). cbn. change [0; 1] with (0 :: [] ++ (1 :: [] ++ [])). eapply holds_cons; [reflexivity|apply L|eapply holds_cons; [reflexivity|apply L|constructor]].
  - apply (holds_node _ (nd "rho(770)0" [2; 3])). cbn. change [2; 3] with (2 :: [] ++ (3 :: [] ++ [])). eapply holds_cons; [reflexivity|apply L|eapply holds_cons; [reflexivity|apply L|constructor]].
  - repeat constructor; cbn; intuition discriminate.
  - cbn. intros k [<-|[<-|[]]]; intuition discriminate.
  - apply (below_here _ _ _ (leaf "rho(770)0")); [now left|reflexivity|reflexivity].
Qed.

(** The reduced decay has the same particle at its head and, up to order, the same particles at its ends; every other particle that decays in it is quasi-stable;
    and every quasi-stable particle that decays, unless it is an only daughter, is still there with the same products. [quasi] is the test of the width, [sort] any
    reordering. *)
Theorem C97_quasi : forall quasi sort, (forall l, Permutation (sort l) l) -> forall t,
  name (item_of (quasiStableTree quasi sort t)) = name (item_of t) /\ Permutation (ends (quasiStableTree quasi sort t)) (ends t) /\
  (forall x, decays_below (quasiStableTree quasi sort t) x -> quasi (name (item_of x)) = true) /\
  (forall x, vertex_below t x -> quasi (name (item_of x)) = true ->
     exists x', decays_below (quasiStableTree quasi sort t) x' /\ name (item_of x') = name (item_of x) /\ Permutation (ends x') (ends x)).
Proof.
  intros quasi sort P t. split; [apply q_name|]. split; [now apply quasi_ends|]. split; [now apply quasi_only|now apply quasi_kept].
Qed.
Print Assumptions C97_quasi.
(** The particles at the ends lose their place in the event. *)
Theorem C97_index_refuted : exists t d d', In d (daughters t) /\ index (item_of d) = 0 /\ daughters (quasiStableTree (fun _ => false) (fun l => l) t) = [d'] /\ name (item_of d') = name (item_of d) /\ index (item_of d') = 999.
Proof. exists (Node (it "phi" 0 0%Z) [Node {| name := S_ "K+"; orbital := 0; pol := 0; index := 0; other := [] |} []]). do 2 eexists. cbn. split; [now left|]. repeat split. Qed.
Print Assumptions C97_index_refuted.
(** A quasi-stable particle that is the only daughter is left out, although it decays. *)
Theorem C97_only_refuted : exists quasi t x, decays_below t x /\ quasi (name (item_of x)) = true /\ ~ exists x', decays_below (quasiStableTree quasi (fun l => l) t) x'.
Proof.
  exists (fun s => str_eqb s (S_ "K(S)0")), (Node (it "K0" 0 0%Z) [Node (it "K(S)0" 0 0%Z) [leaf "pi+"; leaf "pi-"]]), (Node (it "K(S)0" 0 0%Z) [leaf "pi+"; leaf "pi-"]).
  split; [apply decays_here; [now left|discriminate]|]. split; [reflexivity|]. intros (x' & D). cbn in D. apply db_iff in D as (d & I & D). cbn in I.
  destruct I as [<-|[<-|[]]]; (destruct D as [[-> N]|D]; [now apply N|apply db_iff in D as (d & [] & _)]).
Qed.
Print Assumptions C97_only_refuted.
(** B+ -> D0 K+ with an a1 in the decay of the D0. *)
Example quasi_meets : let t := Node (it "B+" 0 0%Z) [Node (it "D0" 0 0%Z) [Node (it "a(1)(1260)+" 0 0%Z) [rho2pi 0; leaf "pi+"]; leaf "K-"]; leaf "K+"] in
  vertex_below t (Node (it "D0" 0 0%Z) [Node (it "a(1)(1260)+" 0 0%Z) [rho2pi 0; leaf "pi+"]; leaf "K-"]) /\
  map (fun d => List.length (daughters d)) (daughters (quasiStableTree (fun s => str_eqb s (S_ "D0")) (fun l => l) t)) = [4; 0].
Proof. cbv zeta. split; [apply vertex_here; [now left|discriminate|discriminate]|reflexivity]. Qed.
