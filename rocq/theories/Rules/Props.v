From Verif.Utilities Require Import Model Proofs.
From Verif.Descriptor Require Import Spec.
From Verif.Rules Require Import Model Spec Strings Multi Proofs.
From Coq Require Import Permutation SetoidPermutation Reals Lra.

(** Expanding a rule terminates, and gives exactly the combinations of rules: for each choice of one rule for every decaying
    particle, in every generation, one amplitude, which carries the couplings of all the rules chosen. For rule sets in
    which no particle decays to itself, no name of a decaying particle is contained in another name, and no decaying
    particle occurs twice in a decay. *)
Theorem C57_expand : forall w rules rank N c,
  (forall n l, Permutation (order w n l) l) ->
  (forall r, In r rules -> rule_ok rules w r /\ descends rules rank r) ->
  (forall x, decays rules x = true -> rank x < N) ->
  rule_ok rules w c ->
  (forall a, In a (combinations rules N c) -> NoDup (filter (decays rules) (all_names (fst a)))) ->
  exists out F, (forall fuel, F <= fuel -> expand w fuel rules c = Ok (map (fun a => (Some (fst a), snd a)) out)) /\
    PermutationA same out (combinations rules N c) /\
    Forall (fun a => forall x, In x (leaves (fst a)) -> decays rules x = false) out.
Proof.
  intros w rules rank N c Ho Hr HN Hc Nd. destruct (expand_ok w rules rank N Ho Hr HN c Hc Nd) as (out & F & H1 & H2 & H3). exists out, F. split; [exact H1|]. split; [exact H2|].
  eapply Forall_impl; [|exact H3]. cbn beta. tauto.
Qed.
Print Assumptions C57_expand.

(** The coupling of an amplitude is the product of those of its rules, in whatever order they were used. *)
Theorem C57_product : (forall r l, total (r :: l) = cmul (at_ (coupling r)) (total l)) /\ total [] = (1, 0)%R /\ forall l k, Permutation l k -> total l = total k.
Proof. split; [exact total_cons|]. split; [reflexivity|exact total_perm]. Qed.
Print Assumptions C57_product.

Local Open Scope R_scope.
(** A coupling given by a modulus and a phase: the phases of a product add up, and are read in degrees with the factor pi / 180. A coupling given by
    its real and imaginary part is that number. *)
Theorem C57_polar : (forall r p r' p' sf, cmul (at_ (Polar r p sf)) (at_ (Polar r' p' sf)) = at_ (Polar (r * r') (p + p') sf)) /\
  (forall r p sf, fst (at_ (Polar r p sf)) * fst (at_ (Polar r p sf)) + snd (at_ (Polar r p sf)) * snd (at_ (Polar r p sf)) = r * r) /\
  (forall r, at_ (Polar r 0 (PI / 180)) = at_ (Cartesian r 0) /\ at_ (Polar r 90 (PI / 180)) = at_ (Cartesian 0 r) /\ at_ (Polar r 180 (PI / 180)) = at_ (Cartesian (- r) 0)) /\
  (forall r, at_ (Polar r (PI / 2) 1) = at_ (Cartesian 0 r)) /\
  forall a b c d, cmul (at_ (Cartesian a b)) (at_ (Cartesian c d)) = at_ (Cartesian (a * c - b * d) (a * d + b * c)).
Proof.
  unfold cmul, at_. cbn [fst snd]. split; [|split; [|split; [|split]]].
  - intros. rewrite Rmult_plus_distr_l, cos_plus, sin_plus. f_equal; ring.
  - intros. pose proof (sin2_cos2 (sf * p)) as H. unfold Rsqr in H. transitivity (r * r * (sin (sf * p) * sin (sf * p) + cos (sf * p) * cos (sf * p))); [ring|]. rewrite H. ring.
  - intro r. replace (PI / 180 * 0) with 0 by ring. replace (PI / 180 * 90) with (PI / 2) by lra. replace (PI / 180 * 180) with PI by lra. rewrite cos_0, sin_0, cos_PI2, sin_PI2, cos_PI, sin_PI. repeat split; f_equal; ring.
  - intro r. rewrite Rmult_1_l, cos_PI2, sin_PI2. f_equal; ring.
  - intros. reflexivity.
Qed.
Print Assumptions C57_polar.

Local Close Scope R_scope.
(** The amplitudes for an event type have distinct descriptors; each comes from the expansion of a rule for the mother with
    the prefix asked for, and every expansion that has all the final states is there, at least by its descriptor. *)
Theorem C57_matching : forall w fuel rules mother fs pre out, getMatchingRules w fuel rules mother fs pre = Ok out ->
  NoDup (map (fun x => text (fst x)) out) /\
  (forall x, In x out -> exists r e o, In r rules /\ head_of r = mother /\ prefix r = pre /\ expand w fuel rules r = Ok e /\ In (o, snd x) e /\
    read w fuel (uniqueString o) = Ok (Some (fst x)) /\ forall y, count_occ (list_eq_dec ascii_dec) fs y <= count_occ (list_eq_dec ascii_dec) (leaves (fst x)) y) /\
  (forall r e o cs p, In r rules -> head_of r = mother -> prefix r = pre -> expand w fuel rules r = Ok e -> In (o, cs) e -> read w fuel (uniqueString o) = Ok (Some p) ->
    (forall y, count_occ (list_eq_dec ascii_dec) fs y <= count_occ (list_eq_dec ascii_dec) (leaves p) y) -> In (text p) (map (fun x => text (fst x)) out)).
Proof.
  intros w fuel rules mother fs pre out H. destruct (matching_fold w fuel rules fs pre _ [] out H) as (A & (new & En & B) & C); [constructor|]. cbn [app] in En. subst new.
  assert (R : forall r, In r (rulesForDecay rules mother pre) <-> In r rules /\ head_of r = mother /\ (pre = [] \/ prefix r = pre)).
  { intro r. unfold rulesForDecay. assert (E : In r (filter (fun r => str_eqb (head_of r) mother) rules) <-> In r rules /\ head_of r = mother) by (rewrite filter_In; destruct (str_eqb_spec (head_of r) mother); intuition congruence).
    destruct pre as [|p0 pre]; [rewrite E; tauto|]. rewrite filter_In, E. destruct (str_eqb_spec (prefix r) (p0 :: pre)); intuition congruence. }
  split; [exact A|]. split.
  - intros x Ix. destruct (B x Ix) as (r & e & [o cs] & Ir & Pr & Ex & Ia & [Rd G] & Es). cbn [fst snd] in *. subst cs. apply R in Ir as (Ir & Hh & _). exists r, e, o. do 6 (split; [assumption|]).
    intro y. rewrite <- !cn_count. now apply isStateGood_spec.
  - intros r e o cs p Ir Hh Pr Ex Ia Rd G. apply (C r e (o, cs) p); [apply R; split; [exact Ir|]; split; [exact Hh|now right]|exact Pr|exact Ex|exact Ia|]. split; [exact Rd|]. apply isStateGood_spec. intro y. rewrite !cn_count. apply G.
Qed.
Print Assumptions C57_matching.

(** *** A rule set: two rules for the a1, two for the rho *)
Definition names : list str := map S_ ["D0"; "K-"; "K+"; "pi+"; "pi-"; "pi0"; "rho(770)0"; "a(1)(1260)+"; "phi(1020)0"; "K0"; "K0S0"; "B0"]%string.
(** daughters that decay come first (C53) *)
Definition unstable_first (l : list tree) : list tree := filter (fun t => match daughters_of t with [] => false | _ => true end) l ++ filter (fun t => match daughters_of t with [] => true | _ => false end) l.
Definition the_world : world := World (fun n => existsb (str_eqb n) names) (fun _ => unstable_first).
Definition leaf n := Tree (S_ n) [] [].
Definition value (k : Z) : Verif.Rules.Model.constant := Value (IZR k, 0%R).
Definition mk (t : tree) (k : Z) : rule := Rule [] (text t) (canon the_world t) (value k).
Definition a1K := mk (Tree (S_ "D0") [] [leaf "K-"; leaf "a(1)(1260)+"]) 2.
Definition a1S := mk (Tree (S_ "a(1)(1260)+") [] [leaf "rho(770)0"; leaf "pi+"]) 3.
Definition a1D := mk (Tree (S_ "a(1)(1260)+") [S_ "D"] [leaf "pi+"; leaf "rho(770)0"]) 5.
Definition rho := mk (Tree (S_ "rho(770)0") [S_ "GounarisSakurai"] [leaf "pi+"; leaf "pi-"]) 7.
Definition rhoBW := mk (Tree (S_ "rho(770)0") [] [leaf "pi+"; leaf "pi-"]) 11.
Definition the_rules := [a1K; a1S; a1D; rho; rhoBW].
Definition rank (x : str) : nat := if str_eqb x (S_ "D0") then 2 else if str_eqb x (S_ "a(1)(1260)+") then 1 else 0.

Lemma order_perm : forall n l, Permutation (order the_world n l) l.
Proof.
  intros n l. cbn [order the_world]. unfold unstable_first. induction l as [|[m ms [|d r]] l IH]; [constructor| |]; cbn [filter daughters_of].
  - rewrite <- Permutation_middle. now constructor.
  - cbn [app]. now constructor.
Qed.
Lemma the_rules_ok : forall r, In r the_rules -> rule_ok the_rules the_world r /\ descends the_rules rank r.
Proof.
  assert (K : forall t k, cleanb the_rules (known the_world) t = true -> daughters_of t <> [] -> rule_ok the_rules the_world (mk t k)).
  { intros t k C D. exists t. split; [reflexivity|]. apply cleanb_sound in C. split; [|now split]. intros fuel F. now apply (read_text the_rules). }
  assert (D : forall r, forallb (fun x => negb (decays the_rules x) || Nat.ltb (rank x) (rank (head_of r))) (flat_map all_names (daughters_of (particle r))) = true -> descends the_rules rank r).
  { intros r H x Ix Dx. rewrite forallb_forall in H. specialize (H x Ix). rewrite Dx in H. now apply Nat.ltb_lt. }
  intros r I. cbn [In the_rules] in I.
  repeat (destruct I as [<- | I]; [split; [apply K; [vm_compute; reflexivity|discriminate]|apply D; vm_compute; reflexivity]|]). destruct I.
Qed.
Definition nodupb (l : list str) : bool := forallb (fun x => Nat.leb (cn x l) 1) l.
Lemma nodupb_sound l : nodupb l = true -> NoDup l.
Proof.
  intro H. unfold nodupb in H. rewrite forallb_forall in H. apply (NoDup_count_occ (list_eq_dec ascii_dec)). intro x. destruct (in_dec (list_eq_dec ascii_dec) x l) as [I | NI].
  - specialize (H x I). apply Nat.leb_le in H. now rewrite <- cn_count.
  - rewrite <- cn_count, cn_none by exact NI. lia.
Qed.
Definition shown (o : res (list amplitude)) : res (list (str * nat)) := bind o (fun l => Ok (map (fun a => (uniqueString (fst a), List.length (snd a))) l)).
Example C57_expand_example : exists out F, (forall fuel, F <= fuel -> expand the_world fuel the_rules a1K = Ok (map (fun a => (Some (fst a), snd a)) out)) /\ PermutationA same out (combinations the_rules 3 a1K).
Proof.
  destruct (C57_expand the_world the_rules rank 3 a1K) as (out & F & H1 & H2 & _).
  - exact order_perm.
  - exact the_rules_ok.
  - intros x _. unfold rank. destruct (str_eqb x (S_ "D0")); [lia|]. destruct (str_eqb x _); lia.
  - apply the_rules_ok. now left.
  - assert (B : forallb (fun a => nodupb (filter (decays the_rules) (all_names (fst a)))) (combinations the_rules 3 a1K) = true) by (vm_compute; reflexivity).
    intros a Ia. rewrite forallb_forall in B. now apply nodupb_sound, B.
  - now exists out, F.
Qed.
Example C57_expand_shown : shown (expand the_world 10 the_rules a1K) = Ok [
  (S_ "D0{a(1)(1260)+{rho(770)0[GounarisSakurai]{pi+,pi-},pi+},K-}", 3); (S_ "D0{a(1)(1260)+{rho(770)0{pi+,pi-},pi+},K-}", 3);
  (S_ "D0{a(1)(1260)+[D]{rho(770)0[GounarisSakurai]{pi+,pi-},pi+},K-}", 3); (S_ "D0{a(1)(1260)+[D]{rho(770)0{pi+,pi-},pi+},K-}", 3)].
Proof. vm_compute. reflexivity. Qed.
Example C57_product_example : total [a1K; a1S; rho] = (42, 0)%R.
Proof. rewrite !(proj1 C57_product). change (total []) with (1, 0)%R. unfold cmul, at_, a1K, a1S, rho, mk, value, coupling. cbn [fst snd]. f_equal; ring. Qed.
Example C57_matching_example : bind (getMatchingRules the_world 10 the_rules (S_ "D0") (map S_ ["K-"; "pi+"; "pi+"; "pi-"]%string) []) (fun l => Ok (map (fun a => (text (fst a), List.length (snd a))) l)) =
  shown (expand the_world 10 the_rules a1K).
Proof. vm_compute. reflexivity. Qed.

(** Two daughters of the same kind are replaced together, the coupling counted once: of the four combinations of two rules
    there are two, with one coupling too few. *)
Theorem C57_identical_refuted : exists w rules N c e, (forall r, In r (c :: rules) -> rule_ok (c :: rules) w r) /\ expand w 10 (c :: rules) c = Ok e /\
  List.length (combinations (c :: rules) N c) = 4 /\ List.length e = 2 /\ forall a b, In a (combinations (c :: rules) N c) -> In b e -> List.length (snd a) = 3 /\ List.length (snd b) = 2.
Proof.
  set (c := mk (Tree (S_ "B0") [] [leaf "phi(1020)0"; leaf "phi(1020)0"]) 2).
  set (p1 := mk (Tree (S_ "phi(1020)0") [] [leaf "K+"; leaf "K-"]) 3). set (p2 := mk (Tree (S_ "phi(1020)0") [] [leaf "pi+"; leaf "pi-"]) 5).
  assert (K : forall t k, cleanb [c; p1; p2] (known the_world) t = true -> daughters_of t <> [] -> rule_ok [c; p1; p2] the_world (mk t k)).
  { intros t k C D. exists t. split; [reflexivity|]. apply cleanb_sound in C. split; [|now split]. intros fuel F. now apply (read_text [c; p1; p2]). }
  exists the_world, [p1; p2], 2, c.
  assert (X : exists t1 t2, expand the_world 10 [c; p1; p2] c = Ok [(Some t1, [c; p1]); (Some t2, [c; p2])]) by (do 2 eexists; vm_compute; reflexivity). destruct X as (t1 & t2 & X).
  assert (Y : exists t1 t2 t3 t4, combinations [c; p1; p2] 2 c = [(t1, [c; p1; p1]); (t2, [c; p1; p2]); (t3, [c; p2; p1]); (t4, [c; p2; p2])]) by (do 4 eexists; vm_compute; reflexivity). destruct Y as (u1 & u2 & u3 & u4 & Y).
  eexists. split; [|split; [exact X|rewrite Y]].
  - intros r I. cbn [In] in I. repeat (destruct I as [<- | I]; [apply K; [vm_compute; reflexivity|discriminate]|]). destruct I.
  - split; [reflexivity|]. split; [reflexivity|]. intros a b Ia Ib. cbn [In] in Ia, Ib. split; [repeat (destruct Ia as [<- | Ia]; [reflexivity|]); destruct Ia|repeat (destruct Ib as [<- | Ib]; [reflexivity|]); destruct Ib].
Qed.
Print Assumptions C57_identical_refuted.

(** A name that contains that of a decaying particle is replaced too: with a rule for the K0, the K0S0 (the name of the
    short-lived neutral kaon in the particle table) becomes a K0 that decays in the same way. *)
Theorem C57_contained_refuted : exists w c r e, hasDecay [c; r] (S_ "K0S0") = false /\ rname c = S_ "D0{K0,K0S0}" /\ rname r = S_ "K0{pi+,pi-}" /\
  expand w 10 [c; r] c = Ok e /\ map (fun a => uniqueString (fst a)) e = [S_ "D0{K0{pi+,pi-},K0{pi+,pi-}}"].
Proof.
  exists the_world, (mk (Tree (S_ "D0") [] [leaf "K0"; leaf "K0S0"]) 2), (mk (Tree (S_ "K0") [] [leaf "pi+"; leaf "pi-"]) 3). eexists. do 3 (split; [reflexivity|]). split; [vm_compute; reflexivity|]. reflexivity.
Qed.
Print Assumptions C57_contained_refuted.

(** The modifiers given to a particle that decays by a rule are dropped, being left after the closing brace. *)
Theorem C57_modifiers_refuted : exists w c r e, rname c = S_ "D0{K-,a(1)(1260)+[GSpline.EFF]}" /\ rname r = S_ "a(1)(1260)+{pi+,pi0}" /\
  expand w 10 [c; r] c = Ok e /\ map (fun a => uniqueString (fst a)) e = [S_ "D0{a(1)(1260)+{pi+,pi0},K-}"].
Proof.
  exists the_world, (mk (Tree (S_ "D0") [] [leaf "K-"; Tree (S_ "a(1)(1260)+") [S_ "GSpline.EFF"] []]) 2), (mk (Tree (S_ "a(1)(1260)+") [] [leaf "pi+"; leaf "pi0"]) 3). eexists. do 2 (split; [reflexivity|]). split; [vm_compute; reflexivity|]. reflexivity.
Qed.
Print Assumptions C57_modifiers_refuted.

(** An amplitude given directly and also by a cascade is kept once, with the coupling met first: the other is lost. *)
Theorem C57_lost_refuted : exists w rules c1 c2 out, In c1 rules /\ In c2 rules /\ head_of c1 = head_of c2 /\ coupling c1 <> coupling c2 /\
  (exists e, expand w 10 rules c2 = Ok e /\ e <> []) /\
  getMatchingRules w 10 rules (head_of c1) (map S_ ["K-"; "pi+"; "pi-"]%string) [] = Ok out /\ forall x, In x out -> ~ In c2 (snd x).
Proof.
  set (c1 := mk (Tree (S_ "D0") [] [leaf "K-"; leaf "rho(770)0"]) 2). set (r := rhoBW). set (c2 := mk (Tree (S_ "D0") [] [leaf "K-"; Tree (S_ "rho(770)0") [] [leaf "pi+"; leaf "pi-"]]) 5).
  assert (X : exists t, getMatchingRules the_world 10 [c1; r; c2] (head_of c1) (map S_ ["K-"; "pi+"; "pi-"]%string) [] = Ok [(t, [c1; r])]) by (eexists; vm_compute; reflexivity). destruct X as (t & X).
  assert (Y : exists e, expand the_world 10 [c1; r; c2] c2 = Ok [e]) by (eexists; vm_compute; reflexivity). destruct Y as (e & Y).
  exists the_world, [c1; r; c2], c1, c2, [(t, [c1; r])].
  assert (N : coupling c1 <> coupling c2). { cbn. unfold value. intro E. injection E as E. apply eq_IZR in E. discriminate. }
  split; [now left|]. split; [now right; right; left|]. split; [reflexivity|]. split; [exact N|]. split; [exists [e]; split; [exact Y|discriminate]|]. split; [exact X|].
  intros x [<- | []]. cbn [snd In]. intros [E | [E | []]]; [apply N; now rewrite E|]. apply (f_equal head_of) in E. discriminate.
Qed.
Print Assumptions C57_lost_refuted.

(** A decay with more particles than the event has is accepted: only the final states of the event are asked for. *)
Theorem C57_extra_refuted : exists w rules out, getMatchingRules w 10 rules (S_ "D0") (map S_ ["K-"; "pi+"]%string) [] = Ok out /\ map (fun x => text (fst x)) out = [S_ "D0{K-,pi+,pi0}"].
Proof. exists the_world, [mk (Tree (S_ "D0") [] [leaf "K-"; leaf "pi+"; leaf "pi0"]) 2]. eexists. split; [vm_compute; reflexivity|reflexivity]. Qed.
Print Assumptions C57_extra_refuted.
