From Verif.Order Require Import Model Spec Proofs.
From Coq Require Import Permutation Sorted.

Definition leaf n i s ma c d k : particle := Part (Props (S_ n) i s ma c d) k [] [].
Definition kplus k := leaf "K+" 321 0 494 1 true k.
Definition kminus k := leaf "K-" (-321) 0 494 (-1) true k.
Definition piplus k := leaf "pi+" 211 0 140 1 true k.
Definition piminus k := leaf "pi-" (-211) 0 140 (-1) true k.
Definition pi0 k := leaf "pi0" 111 0 135 0 false k.

(** Where no particle meets its antiparticle with the lower charge, the comparison is a strict weak order that only
    ties particles alike in every quantity compared. *)
Theorem C53_order_partial : forall S, charged_up S ->
  strict_weak S less /\ forall a b, S a -> S b -> tie less a b = true -> alike a b.
Proof.
  intros S H. split; [now apply less_order|]. intros a b Sa Sb T. apply tie_true in T as []. now apply (less_total S).
Qed.
Print Assumptions C53_order_partial.

Example C53_order_example : charged_up (fun a => In a [kplus 0; kminus 1; piplus 2; piminus 3; pi0 4]) /\
  stable_sort [piminus 3; kminus 1; pi0 4; piplus 2; kplus 0] = [kplus 0; kminus 1; piplus 2; piminus 3; pi0 4].
Proof.
  split; [|reflexivity]. unfold charged_up. intros a b Ha Hb. cbn in Ha, Hb.
  repeat match goal with H : _ \/ _ |- _ => destruct H as [<- | H] end; try tauto; cbn; lia.
Qed.

(** The comparison of daughters has cycles: Delta(1232)- comes before its antiparticle (ids 1114 and -1114: line 813),
    that one before Delta(1232)0 (charges +1 and 0: line 815), and Delta(1232)0 before Delta(1232)- (charges 0 and -1).
    All four states have mass 1232 and spin 3/2 in options/mass_width.csv:442-445; with such daughters
    std::stable_sort has undefined behaviour. *)
Theorem C53_order_refuted : exists a b c, less a b = true /\ less b c = true /\ less c a = true.
Proof.
  exists (leaf "Delta(1232)-" 1114 3 1232 (-1) true 999), (leaf "Delta(1232)~+" (-1114) 3 1232 1 true 999), (leaf "Delta(1232)0" 2114 3 1232 0 true 999).
  repeat split; reflexivity.
Qed.
Print Assumptions C53_order_refuted.

(** [a > b] is [!(a < b)]: true of two particles that cannot be told apart, and of a particle and itself. *)
Theorem C53_greater_refuted : exists a b, greater a a = true /\ greater a b = true /\ greater b a = true.
Proof. exists (pi0 999), (pi0 999). repeat split; reflexivity. Qed.
Print Assumptions C53_greater_refuted.

(** The converse of [<] is contained in [>]; they differ exactly on ties. *)
Theorem C53_greater : forall S a b, charged_up S -> S a -> S b ->
  (greater a b = true <-> less b a = true \/ tie less a b = true).
Proof.
  intros S a b H Sa Sb. unfold greater, tie. destruct (less a b) eqn:E1, (less b a) eqn:E2; cbn; split; auto; try (intros []; discriminate); try discriminate.
  intros _. pose proof (asym S (less_order S H) a b Sa Sb E1). congruence.
Qed.
Print Assumptions C53_greater.

(** Sorting gives the one list that a stable sort may give. *)
Theorem C53_unique : forall S l, charged_up S -> Forall S l ->
  stably_sorted less l (stable_sort l) /\ forall l', stably_sorted less l l' -> l' = stable_sort l.
Proof.
  intros S l H Hl. pose proof (less_order S H) as W. split; [now apply (sort_ok S)|]. intros l' H'. apply (stable_unique S W l); auto. now apply (sort_ok S).
Qed.
Print Assumptions C53_unique.

(** Descriptors are canonical when daughters that cannot be told apart are the same: whatever the order in which the
    daughters are given, the sorted decay is the same. *)
Theorem C53_canonical_partial : forall S get p i m ds ds', charged_up S -> Forall S ds -> (0 <= pid p)%Z ->
  Permutation ds ds' -> (forall a b, In a ds -> In b ds -> alike a b -> a = b) ->
  exists a, sortDaughters get (Part p i m ds) = Ok a /\ sortDaughters get (Part p i m ds') = Ok a.
Proof.
  intros S get p i m ds ds' H Hds Hp P T. exists (Part p i m (stable_sort ds)). unfold sortDaughters. cbn [props_of].
  replace (Z.ltb (pid p) 0) with false by (symmetry; now apply Z.ltb_ge). cbn [sorted_daughters]. split; [reflexivity|].
  rewrite (sort_canonical S (less_order S H) ds ds' Hds P); [reflexivity|]. intros a b Ha Hb Tt. apply T; auto.
  apply tie_true in Tt as []. rewrite Forall_forall in Hds. apply (less_total S); auto.
Qed.
Print Assumptions C53_canonical_partial.

Definition rho m := Part (Props (S_ "rho(770)0") 113 2 775 0 false) 999 m [piplus 999; piminus 999].
Definition d0 := Props (S_ "D0") 421 0 1865 0 true.
Example C53_canonical_example :
  sortDaughters (fun _ => None) (Part d0 999 [] [piplus 1; rho []; piminus 0]) = Ok (Part d0 999 [] [rho []; piplus 1; piminus 0]) /\
  descriptor (Part d0 999 [] [rho []; piplus 1; piminus 0]) = S_ "D0{rho(770)0{pi+,pi-},pi+,pi-}".
Proof. split; reflexivity. Qed.

(** Two resonances of the same name with different lineshapes or decays have no index and are not told apart: they
    stay in the order given, so one amplitude has two descriptors. *)
Theorem C53_canonical_refuted : exists get p x y a b, sortDaughters get (Part p 999 [] [x; y]) = Ok a /\ sortDaughters get (Part p 999 [] [y; x]) = Ok b /\
  descriptor a = S_ "D0{rho(770)0{pi+,pi-},rho(770)0[D]{pi+,pi-}}" /\ descriptor b = S_ "D0{rho(770)0[D]{pi+,pi-},rho(770)0{pi+,pi-}}".
Proof.
  exists (fun _ => None), d0, (rho []), (rho (S_ "[D]")). eexists. eexists. repeat split; reflexivity.
Qed.
Print Assumptions C53_canonical_refuted.

(** Sorting only rearranges the daughters, also for the decay of an antiparticle, where it conjugates the whole tree
    twice. *)
Theorem C53_keeps : forall get p i m ds, all_nodes (paired get) (Part p i m ds) ->
  exists ds', sortDaughters get (Part p i m ds) = Ok (Part p i m ds') /\ Permutation ds ds'.
Proof. intros get p i m ds H. exact (sortDaughters_ok get (Part p i m ds) H). Qed.
Print Assumptions C53_keeps.

(** The decay of an antiparticle is sorted as the conjugate of the sorted decay of the particle. *)
Theorem C53_conjugate : forall get a a', all_nodes (paired get) a -> (pid (props_of a) > 0)%Z -> distinct (props_of a) = true -> conjThis get a = Ok a' ->
  exists s, sortDaughters get a = Ok s /\ sortDaughters get a' = conjThis get s.
Proof. exact sortDaughters_conj. Qed.
Print Assumptions C53_conjugate.

Definition table (z : Z) : option props :=
  if Z.eqb z 421 then Some d0 else if Z.eqb z (-421) then Some (Props (S_ "Dbar0") (-421) 0 1865 0 true)
  else if Z.eqb z 321 then Some (props_of (kplus 0)) else if Z.eqb z (-321) then Some (props_of (kminus 0))
  else if Z.eqb z 211 then Some (props_of (piplus 0)) else if Z.eqb z (-211) then Some (props_of (piminus 0)) else None.
Example C53_conjugate_example :
  all_nodes (paired table) (Part d0 999 [] [piplus 1; kminus 0; kplus 2]) /\
  (exists s, sortDaughters table (Part d0 999 [] [piplus 1; kminus 0; kplus 2]) = Ok s /\ descriptor s = S_ "D0{K+,K-,pi+}") /\
  exists a' s, conjThis table (Part d0 999 [] [piplus 1; kminus 0; kplus 2]) = Ok a' /\ sortDaughters table a' = Ok s /\ descriptor s = S_ "Dbar0{K-,K+,pi-}".
Proof.
  split.
  - assert (P : forall p, In p [d0; props_of (piplus 1); props_of (kminus 0); props_of (kplus 2)] -> paired table p).
    { intros p H _. cbn [In] in H. repeat destruct H as [<- | H]; [| | | |tauto]; (split; [discriminate|]; split; [reflexivity|]; eexists; split; [reflexivity|]; split; reflexivity). }
    constructor; [apply P; cbn; auto|]. repeat (apply Forall_cons; [constructor; [apply P; cbn; auto 10|apply Forall_nil]|]). apply Forall_nil.
  - split; [eexists; split; reflexivity|]. eexists. eexists. repeat split; reflexivity.
Qed.
