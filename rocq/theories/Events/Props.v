(** C40-C45, C68: events, lists of events, event types and generation. *)
From Coq Require Import Permutation Ring_theory.
From Verif.Events Require Import Model Spec Momenta Ordering Lists Format Generate Shuffle.
Local Open Scope nat_scope.

(** ** C40: the integral *)
(** Whole weights are summed exactly while the partial sums fit an int. *)
Theorem C40_whole_weights_partial : forall zs, Forall (fun z => in_int z = true) (partial_sums 0 zs) ->
  integral (map inject_Z zs) = Ok (fold_right Z.add 0%Z zs).
Proof. exact (fun zs H => integral_whole zs 0%Z H). Qed.
Print Assumptions C40_whole_weights_partial.
Example C40_whole_example : integral (map inject_Z [3; -5; 7]%Z) = Ok 5%Z.
Proof. vm_compute. reflexivity. Qed.

(** For weights that are not negative the result is at most the sum, and short of it by less than the number of events. *)
Theorem C40_loss_partial : forall ws r, ws <> [] -> Forall (fun w => 0 <= w)%Q ws -> integral ws = Ok r ->
  (inject_Z r <= Qsum ws)%Q /\ (Qsum ws < inject_Z r + inject_Z (Z.of_nat (List.length ws)))%Q.
Proof.
  intros ws r N H E. destruct (integral_nonneg ws 0%Z r (Z.le_refl 0) H E) as (H1 & _ & H3). specialize (H3 N).
  change (inject_Z 0) with 0%Q in *. rewrite Qplus_0_l in *. split; assumption.
Qed.
Print Assumptions C40_loss_partial.
Example C40_loss_example : integral [5 # 2; 7 # 4]%Q = Ok 3%Z.
Proof. vm_compute. reflexivity. Qed.

(** EventList::integral() passes the integer 0 to std::accumulate, so every partial sum is cut to an integer: a list of
    weights between 0 and 1 (sWeights, efficiencies, normalised weights) always has integral 0, whatever its sum. *)
Theorem C40_fractions_refuted :
  (forall ws, Forall (fun w => 0 <= w /\ w < 1)%Q ws -> integral ws = Ok 0%Z) /\
  (exists ws, integral ws = Ok 0%Z /\ Qsum ws == 100)%Q.
Proof.
  split; [exact integral_fractions|]. exists (repeat (1 # 2)%Q 200). split; [|vm_compute; reflexivity].
  apply integral_fractions. apply Forall_forall. intros w Hw. apply repeat_spec in Hw. subst w. split; [discriminate|reflexivity].
Qed.
Print Assumptions C40_fractions_refuted.

(** ** C41: positions *)
Theorem C41_positions_partial : forall (A : Type) (ops : list (op A)) (l : list (entry A)),
  Forall (not_self A) ops -> Forall (fun o => removes A o = false) ops -> numbered l ->
  exists l', run A ops l = Ok l' /\ numbered l' /\ map (body A) l' = fold_left (content1 A) ops (map (body A) l).
Proof.
  intros A ops l H1 H2 N. destruct (run_ok A ops l H1) as (l' & R & B & NN). exists l'. split; [exact R|]. split; [|exact B]. now apply NN.
Qed.
Print Assumptions C41_positions_partial.

(** Removals keep the right contents. *)
Theorem C41_contents : forall (A : Type) (ops : list (op A)) (l : list (entry A)), Forall (not_self A) ops ->
  exists l', run A ops l = Ok l' /\ map (body A) l' = fold_left (content1 A) ops (map (body A) l).
Proof. intros A ops l H. destruct (run_ok A ops l H) as (l' & R & B & _). now exists l'. Qed.
Print Assumptions C41_contents.

Example C41_example : exists l', run nat [PushBack nat {| body := 7; index := 9 |}; Add nat {| body := 0; index := 0 |} (Some [{| body := 4; index := 0 |}; {| body := 5; index := 0 |}]);
    Transform nat S] [] = Ok l' /\ map (index nat) l' = [0; 1; 2] /\ map (body nat) l' = [8; 5; 6].
Proof. eexists. split; [reflexivity|]. split; reflexivity. Qed.

(** erase and filter leave the remaining events with the indices they had: whatever is looked up by index afterwards
    (a cached amplitude) is that of another event, or outside the cache. *)
Theorem C41_removal_refuted : exists (ops1 ops2 : list (op nat)) l1 l2,
  run nat (ops1 ++ [Erase nat 0 1]) [] = Ok l1 /\ ~ numbered l1 /\
  run nat (ops2 ++ [Filter nat Nat.even]) [] = Ok l2 /\ ~ numbered l2 /\
  Forall (not_self nat) (ops1 ++ ops2) /\ Forall (fun o => removes nat o = false) (ops1 ++ ops2).
Proof.
  set (ops := [PushBack nat {| body := 2; index := 0 |}; PushBack nat {| body := 3; index := 0 |}]).
  exists ops, ops. eexists. eexists. split; [reflexivity|]. split; [discriminate|]. split; [reflexivity|]. split; [discriminate|].
  split; repeat constructor.
Qed.
Print Assumptions C41_removal_refuted.

(** Appending a list that is not empty to itself runs past the end: the size of the source is read again after it has
    grown. *)
Theorem C41_self_append_refuted : forall (A : Type) blank (l : list (entry A)), l <> [] -> run A [Add A blank None] l = UB.
Proof. intros A blank l N. cbn [run run1]. rewrite (add_self A blank l N). reflexivity. Qed.
Print Assumptions C41_self_append_refuted.
Example C41_self_example : run nat [Add nat {| body := 0; index := 0 |} None] [{| body := 1; index := 0 |}] = UB.
Proof. reflexivity. Qed.

(** resize replaces every event, also those that were there before: growing a list loses its contents. *)
Theorem C41_resize_refuted : exists (l l' : list (entry nat)), run nat [Resize nat 0 3] l = Ok l' /\ List.length l < List.length l' /\
  map (body nat) (firstn (List.length l) l') <> map (body nat) l.
Proof. exists [{| body := 5; index := 0 |}]. eexists. split; [reflexivity|]. split; [cbn; lia|discriminate]. Qed.
Print Assumptions C41_resize_refuted.

(** ** C42: the format *)
(** With the energy included, and names that do not clash with the extensions, every slot from 0 to the size of the format
    is used exactly once, and each quantity is where Event expects it. *)
Theorem C42_slots_partial : forall o t, alt t = false \/ o = false -> energy t = true ->
  NoDup (extensions t) -> (forall x, In x (extensions t) -> ~ In x (keys (base o t))) ->
  Permutation (map snd (getEventFormat o t)) (seq 0 (List.length (getEventFormat o t))) /\
  List.length (getEventFormat o t) = 4 * size t + (if timeDependent t then 1 else 0) + List.length (extensions t) /\
  (forall ip n, nth_error (names t) ip = Some n ->
     slot (stub o t ip n ++ S_ "_Px") (getEventFormat o t) = Some (4 * ip) /\
     slot (stub o t ip n ++ S_ "_Py") (getEventFormat o t) = Some (4 * ip + 1) /\
     slot (stub o t ip n ++ S_ "_Pz") (getEventFormat o t) = Some (4 * ip + 2) /\
     slot (stub o t ip n ++ S_ "_E") (getEventFormat o t) = Some (4 * ip + 3)) /\
  (timeDependent t = true -> slot (mother t ++ S_ "_decayTime") (getEventFormat o t) = Some (4 * size t)) /\
  (forall k x, nth_error (extensions t) k = Some x ->
     slot x (getEventFormat o t) = Some (4 * size t + (if timeDependent t then 1 else 0) + k)).
Proof.
  intros o t Hm He NX Hx.
  assert (ND : NoDup (keys (base o t) ++ extensions t)).
  { apply Format.NoDup_app; [now apply base_NoDup|exact NX|]. intros k H C. exact (Hx k C H). }
  assert (BL : List.length (base o t) = 4 * size t + if timeDependent t then 1 else 0) by (rewrite base_length; unfold stride; now rewrite He).
  split; [now apply slots_perm|]. split; [|split; [|split]].
  - rewrite (format_ok o t ND), app_length, combine_length, seq_length, Nat.min_id, BL. reflexivity.
  - intros ip n Hn. pose proof (lookup_part o t ip n) as LP. unfold part in LP. rewrite He in LP.
    assert (G : forall k v, In (k, v) ([(stub o t ip n ++ S_ "_E", 4 * ip + 3)] ++ [(stub o t ip n ++ S_ "_Px", 4 * ip + 0); (stub o t ip n ++ S_ "_Py", 4 * ip + 1); (stub o t ip n ++ S_ "_Pz", 4 * ip + 2)]) ->
      slot k (getEventFormat o t) = Some v) by (intros k v H; exact (LP (k, v) ND Hn H)).
    rewrite <- (Nat.add_0_r (4 * ip)) at 1. repeat split; apply G; cbn [app In]; auto.
  - intro H. now apply lookup_time.
  - intros k x H. rewrite (lookup_extension o t k x ND H), BL. reflexivity.
Qed.
Print Assumptions C42_slots_partial.
Definition C42_type : eventType :=
  {| mother := S_ "D0"; names := [S_ "K#"; S_ "pi~"; S_ "pi~"]; timeDependent := true; extensions := [S_ "tag"]; alt := false; energy := true |}.
Example C42_slots_example : NoDup (extensions C42_type) /\ (forall x, In x (extensions C42_type) -> ~ In x (keys (base true C42_type))) /\
  slot (S_ "_2_pi~_Py") (getEventFormat true C42_type) = Some 5 /\ slot (S_ "D0_decayTime") (getEventFormat true C42_type) = Some 12 /\
  slot (S_ "tag") (getEventFormat true C42_type) = Some 13.
Proof.
  split; [repeat constructor; intros []|]. split; [|repeat split].
  intros x [<-|[]] H. cbn in H. repeat (destruct H as [H|H]; [discriminate H|]). destruct H.
Qed.

(** Without the energy in the format (EventType::IncludeEnergy = false) an event read from a tree has three numbers per
    particle, while the event accessors take four: the energy of the last particle is outside the event. *)
Theorem C42_no_energy_refuted : forall t, alt t = false -> energy t = false -> extensions t = [] -> timeDependent t = false -> names t <> [] ->
  forall e : list Q, List.length e = read t -> s1 Q Qminus Qmult e (size t - 1) = UB.
Proof.
  intros t Ha He Hx Ht Hn e L. unfold read in L.
  assert (ND : NoDup (keys (base true t) ++ extensions t)) by (rewrite Hx, app_nil_r; apply base_NoDup; now left).
  rewrite (format_ok true t ND), Hx in L. cbn [combine] in L. rewrite app_nil_r, base_length in L. unfold stride in L. rewrite He, Ht in L.
  assert (size t > 0) by (unfold size; destruct (names t); [congruence|cbn; lia]).
  unfold s1, block, get. destruct (nth_error e (4 * (size t - 1))); [|reflexivity]. cbn [of_opt bind].
  destruct (nth_error e (4 * (size t - 1) + 1)); [|reflexivity]. cbn [of_opt bind].
  destruct (nth_error e (4 * (size t - 1) + 2)); [|reflexivity]. cbn [of_opt bind].
  assert (N : nth_error e (4 * (size t - 1) + 3) = None) by (apply nth_error_None; lia). rewrite N. reflexivity.
Qed.
Print Assumptions C42_no_energy_refuted.
Definition C42_type3 (td : bool) (xs : list str) : eventType :=
  {| mother := S_ "D0"; names := [S_ "K#"; S_ "pi~"]; timeDependent := td; extensions := xs; alt := false; energy := false |}.
Example C42_no_energy_example : alt (C42_type3 false []) = false /\ read (C42_type3 false []) = 6 /\ names (C42_type3 false []) <> [].
Proof. repeat split. discriminate. Qed.

(** Without the energy and with a decay time, the decay time is given the slot [4 n] of a format of [3 n + 1] entries, so it
    is outside the event that is read; and an extension can be given the same slot as the decay time. *)
Theorem C42_decay_time_refuted : exists t e x y, e = x /\ x <> y /\
  slot x (getEventFormat true t) = Some 8 /\ read t = 9 /\ slot y (getEventFormat true t) = Some 8 /\
  (exists t', slot x (getEventFormat true t') = Some 8 /\ read t' = 7).
Proof.
  exists (C42_type3 true [S_ "a"; S_ "b"]), (S_ "D0_decayTime"), (S_ "D0_decayTime"), (S_ "b").
  split; [reflexivity|]. split; [discriminate|]. split; [reflexivity|]. split; [reflexivity|]. split; [reflexivity|].
  exists (C42_type3 true []). split; reflexivity.
Qed.
Print Assumptions C42_decay_time_refuted.

(** The events made by EventList::resize have no slot for the decay time of a time dependent type: Generator and
    PhaseSpace::fill write it one past the end. *)
Theorem C42_resize_refuted : forall o t, alt t = false \/ o = false -> energy t = true -> extensions t = [] -> timeDependent t = true ->
  exists p, slot (mother t ++ S_ "_decayTime") (getEventFormat o t) = Some p /\ ~ p < resized t /\ p < made t.
Proof.
  intros o t Hm He Hx Ht. exists (4 * size t).
  assert (ND : NoDup (keys (base o t) ++ extensions t)) by (rewrite Hx, app_nil_r; now apply base_NoDup).
  split; [now apply lookup_time|]. unfold resized, made. rewrite Ht. lia.
Qed.
Print Assumptions C42_resize_refuted.
Example C42_resize_example : resized C42_type = 12 /\ slot (S_ "D0_decayTime") (getEventFormat true C42_type) = Some 12.
Proof. split; reflexivity. Qed.

(** Extensions are not counted by eventSize(), nor by the events that are made: their slots are outside. *)
Theorem C42_extension_refuted : forall o t k x, alt t = false \/ o = false -> energy t = true -> NoDup (extensions t) ->
  (forall x, In x (extensions t) -> ~ In x (keys (base o t))) -> nth_error (extensions t) k = Some x ->
  exists p, slot x (getEventFormat o t) = Some p /\ ~ p < eventSize t /\ ~ p < made t.
Proof.
  intros o t k x Hm He NX Hx Hk. destruct (C42_slots_partial o t Hm He NX Hx) as (_ & _ & _ & _ & X). eexists. split; [exact (X k x Hk)|].
  unfold eventSize, made. destruct (timeDependent t); lia.
Qed.
Print Assumptions C42_extension_refuted.
Example C42_extension_example : nth_error (extensions C42_type) 0 = Some (S_ "tag") /\ eventSize C42_type = 13.
Proof. split; reflexivity. Qed.

(** An extension with the name of an existing branch moves that branch: its slot of the momentum is lost. *)
Theorem C42_name_clash_refuted : exists t, energy t = true /\ alt t = false /\ slot (S_ "_1_K#_Px") (getEventFormat true t) = Some 8 /\
  ~ In 0 (map snd (getEventFormat true t)).
Proof.
  exists {| mother := S_ "D0"; names := [S_ "K#"; S_ "pi~"]; timeDependent := false; extensions := [S_ "_1_K#_Px"]; alt := false; energy := true |}.
  split; [reflexivity|]. split; [reflexivity|]. split; [reflexivity|]. vm_compute. intuition discriminate.
Qed.
Print Assumptions C42_name_clash_refuted.

(** ** C43: automatic ordering *)
(** The particles have been put in the declared order, up to the sign of all ids. *)
Definition in_order (sgn : Z) {A} (ids actual : list Z) (ps ps' : list (A * A * A * A)) : Prop :=
  exists addr, Permutation addr (seq 0 (List.length ids)) /\ List.length ps' = List.length ps /\
    forall j p, nth_error addr j = Some p -> nth_error ps' p = nth_error ps j /\
      exists d, nth_error ids p = Some d /\ nth_error actual j = Some (sgn * d)%Z.

Theorem C43_same_particles : forall (A : Type) ids actual (ps : list (A * A * A * A)) rest,
  Permutation actual ids -> List.length ps = List.length ids -> List.length ids <= 999 ->
  exists ps', automaticOrdering A ids actual (flat ps ++ rest) = Ok (true, flat ps' ++ rest) /\ in_order 1 ids actual ps ps'.
Proof.
  intros A ids actual ps rest P Lp Ln. assert (L : List.length actual = List.length ids) by now apply Permutation_length.
  assert (P' : Permutation actual (map (Z.mul 1) ids)) by (rewrite (map_ext (Z.mul 1) (fun z => z)) by (intro; apply Z.mul_1_l); now rewrite map_id).
  destruct (ordering_sgn A 1 ids actual ps rest L Lp Ln P') as (addr & ps' & C & R & Pa & S1 & H). exists ps'. split.
  - unfold automaticOrdering. rewrite matches_true; [|lia|intros y Hy; rewrite Z.mul_1_l; now apply (Permutation_in _ P)]. cbn [bind]. rewrite C. cbn [bind].
    rewrite R. reflexivity.
  - exists addr. split; [exact Pa|]. split; [apply S1|]. intros j p Hj. split; [now apply S1|now apply H].
Qed.
Print Assumptions C43_same_particles.
Example C43_same_example : automaticOrdering Z [211; 211; -321]%Z [-321; 211; 211]%Z
    (flat [(1, 1, 1, 1); (2, 2, 2, 2); (3, 3, 3, 3)]%Z ++ [9%Z]) = Ok (true, flat [(2, 2, 2, 2); (3, 3, 3, 3); (1, 1, 1, 1)]%Z ++ [9%Z]).
Proof. vm_compute. reflexivity. Qed.

(** The conjugate decay is recognised when at least one id is not among the declared ones. *)
Theorem C43_conjugate_partial : forall (A : Type) ids actual (ps : list (A * A * A * A)) rest y,
  Permutation actual (map Z.opp ids) -> In y actual -> ~ In y ids -> List.length ps = List.length ids -> List.length ids <= 999 ->
  exists ps', automaticOrdering A ids actual (flat ps ++ rest) = Ok (true, flat ps' ++ rest) /\ in_order (-1) ids actual ps ps'.
Proof.
  intros A ids actual ps rest y P Hy Ny Lp Ln. assert (L : List.length actual = List.length ids) by (rewrite (Permutation_length P); apply map_length).
  assert (P' : Permutation actual (map (Z.mul (-1)) ids)) by (rewrite (map_ext (Z.mul (-1)) Z.opp) by (intro; lia); exact P).
  destruct (ordering_sgn A (-1) ids actual ps rest L Lp Ln P') as (addr & ps' & C & R & Pa & S1 & H). exists ps'. split.
  - unfold automaticOrdering. rewrite (matches_false _ _ 1 y); [|lia|exact Hy|rewrite Z.mul_1_l; exact Ny]. cbn [bind].
    rewrite matches_true; [|lia|]. { cbn [bind]. rewrite C. cbn [bind]. rewrite R. reflexivity. }
    intros z Hz. apply (Permutation_in _ P) in Hz. apply in_map_iff in Hz as (d & <- & Hd). now replace (-1 * - d)%Z with d by lia.
  - exists addr. split; [exact Pa|]. split; [apply S1|]. intros j p Hj. split; [now apply S1|now apply H].
Qed.
Print Assumptions C43_conjugate_partial.
Example C43_conjugate_example : Permutation [321; -211; -211]%Z (map Z.opp [-321; 211; 211]%Z) /\ In 321%Z [321; -211; -211]%Z /\ ~ In 321%Z [-321; 211; 211]%Z.
Proof. split; [apply Permutation_refl|]. split; [now left|]. intros [H|[H|[H|[]]]]; discriminate. Qed.

(** Ids of which some is neither declared (nor the opposite of a declared one) are reported, and the event is left alone. *)
Theorem C43_mismatch : forall (A : Type) ids actual (e : list A) y y', List.length actual = List.length ids ->
  In y actual -> ~ In y ids -> In y' actual -> ~ In (- y')%Z ids -> automaticOrdering A ids actual e = Ok (false, e).
Proof.
  intros A ids actual e y y' L Hy Ny Hy' Ny'. unfold automaticOrdering.
  rewrite (matches_false _ _ 1 y); [|lia|exact Hy|rewrite Z.mul_1_l; exact Ny]. cbn [bind].
  rewrite (matches_false _ _ (-1) y'); [reflexivity|lia|exact Hy'|]. now replace (-1 * y')%Z with (- y')%Z by lia.
Qed.
Print Assumptions C43_mismatch.
Example C43_mismatch_example : automaticOrdering nat [211; -211]%Z [211; 321]%Z [1; 2; 3; 4; 5; 6; 7; 8] = Ok (false, [1; 2; 3; 4; 5; 6; 7; 8]).
Proof. vm_compute. reflexivity. Qed.

(** Only the presence of each id is checked, not how often it occurs. Whenever every id is a declared one but the
    multiplicities differ, the place 999 that marks "not assigned" is used as an address: a write far outside the event.
    This happens for the charge conjugate of a decay such as D+ -> pi+ pi+ pi-, with ids -211 -211 211. *)
Theorem C43_multiplicity_refuted :
  (forall (A : Type) ids actual (e : list A), List.length actual = List.length ids -> List.length ids <= 999 -> List.length e <= 3996 ->
    (forall y, In y actual -> In y ids) -> ~ Permutation actual ids -> automaticOrdering A ids actual e = UB) /\
  (let ids := [211; 211; -211]%Z in let actual := map Z.opp ids in (forall y, In y actual -> In y ids) /\ ~ Permutation actual ids).
Proof.
  split.
  - intros A ids actual e L Ln Le I' N. unfold automaticOrdering. rewrite matches_true; [|lia|intros y Hy; rewrite Z.mul_1_l; now apply I']. cbn [bind].
    destruct (ordering_bad A 1 ids actual e L Ln Le) as (addr & C & R).
    + rewrite (map_ext (Z.mul 1) (fun z => z)) by (intro; apply Z.mul_1_l). now rewrite map_id.
    + rewrite C. cbn [bind]. rewrite R. reflexivity.
  - cbn. split; [intros y [<-|[<-|[<-|[]]]]; auto|]. intro P.
    pose proof (proj1 (Permutation_count_occ Z.eq_dec [-211; -211; 211]%Z [211; 211; -211]%Z) P 211%Z) as X. discriminate X.
Qed.
Print Assumptions C43_multiplicity_refuted.

(** More ids than declared particles: the table of used places is overrun. *)
Theorem C43_too_many_refuted : exists ids actual, forall (A : Type) (e : list A), automaticOrdering A ids actual e = UB.
Proof. exists [211; -211]%Z, [211; -211; 211]%Z. reflexivity. Qed.
Print Assumptions C43_too_many_refuted.

(** ** C44: momenta *)
Theorem C44_swap : forall (A : Type) (ps : list (A * A * A * A)) rest i j, i < List.length ps -> j < List.length ps ->
  exists ps', swap A (flat ps ++ rest) i j = Ok (flat ps' ++ rest) /\ exchanged i j ps ps' /\
    swap A (flat ps' ++ rest) i j = Ok (flat ps ++ rest).
Proof.
  intros A ps rest i j Hi Hj. destruct (swap_flat A ps rest i j Hi Hj) as (ps' & X & S1). exists ps'. split; [exact S1|]. split; [exact X|].
  exact (swap_twice A ps rest i j _ Hi Hj S1).
Qed.
Print Assumptions C44_swap.
Example C44_swap_example : swap Z (flat [(1, 2, 3, 4); (5, 6, 7, 8)]%Z ++ [9%Z]) 0 1 = Ok (flat [(5, 6, 7, 8); (1, 2, 3, 4)]%Z ++ [9%Z]).
Proof. vm_compute. reflexivity. Qed.

Theorem C44_reorder : forall (A : Type) a (ps : list (A * A * A * A)) rest,
  Permutation a (seq 0 (List.length a)) -> List.length a = List.length ps ->
  exists ps', reorder A a (flat ps ++ rest) = Ok (flat ps' ++ rest) /\ sent a ps ps' /\ Permutation ps' ps.
Proof. exact reorder_flat. Qed.
Print Assumptions C44_reorder.
Example C44_reorder_example : reorder Z [2; 0; 1] (flat [(1, 1, 1, 1); (2, 2, 2, 2); (3, 3, 3, 3)]%Z) = Ok (flat [(2, 2, 2, 2); (3, 3, 3, 3); (1, 1, 1, 1)]%Z).
Proof. vm_compute. reflexivity. Qed.

(** All forms of s are the mass squared of the sum of the momenta, over any commutative ring of numbers. *)
Theorem C44_masses : forall (A : Type) zero one add mul sub opp, ring_theory zero one add mul sub opp (@eq A) ->
  forall (ps : list (A * A * A * A)) rest,
  (forall l qs, Forall2 (fun i q => nth_error ps i = Some q) l qs ->
     s_all A zero add sub mul (flat ps ++ rest) l = Ok (mass2 sub mul (total zero add qs))) /\
  (forall i q, nth_error ps i = Some q -> s1 A sub mul (flat ps ++ rest) i = Ok (mass2 sub mul q) /\ s_all A zero add sub mul (flat ps ++ rest) [i] = s1 A sub mul (flat ps ++ rest) i) /\
  (forall l l', Permutation l l' -> (forall i, In i l -> i < List.length ps) ->
     s_all A zero add sub mul (flat ps ++ rest) l = s_all A zero add sub mul (flat ps ++ rest) l').
Proof.
  intros A zero one add mul sub opp R ps rest.
  assert (M : forall l qs, Forall2 (fun i q => nth_error ps i = Some q) l qs -> s_all A zero add sub mul (flat ps ++ rest) l = Ok (mass2 sub mul (total zero add qs)))
    by (exact (s_all_total A zero one add mul sub opp R ps rest)).
  split; [exact M|]. split.
  - intros i q H. rewrite (s1_mass A mul sub ps rest i q H). split; [reflexivity|].
    rewrite (M [i] [q]) by (constructor; [exact H|constructor]). f_equal. unfold total. cbn [fold_right]. now rewrite (plus4_zero A zero one add mul sub opp R).
  - intros l l' P Hl.
    assert (G : forall m, (forall i, In i m -> i < List.length ps) -> Forall2 (fun i q => nth_error ps i = Some q) m (map (fun i => nth i ps (zero, zero, zero, zero)) m)).
    { induction m as [|i m IH]; intro Hm; [constructor|]. constructor; [apply nth_error_nth'; apply Hm; now left|apply IH; intros; apply Hm; now right]. }
    rewrite (M l _ (G l Hl)). rewrite (M l' _ (G l' ltac:(intros i Hi; apply Hl; now apply (Permutation_in _ (Permutation_sym P))))).
    f_equal. f_equal. apply (total_perm A zero one add mul sub opp R). now apply Permutation_map.
Qed.
Print Assumptions C44_masses.
Example C44_masses_example : s_all Z 0%Z Z.add Z.sub Z.mul (flat [(1, 2, 3, 9); (5, 6, 7, 20); (0, 0, 1, 2); (1, 0, 0, 3)]%Z) [0; 2; 1; 3] = Ok 922%Z.
Proof. vm_compute. reflexivity. Qed.

(** Reordering the event and renaming the particles accordingly leaves every invariant mass unchanged. *)
Theorem C44_invariance : forall (A : Type) zero one add mul sub opp, ring_theory zero one add mul sub opp (@eq A) ->
  forall a (ps : list (A * A * A * A)) rest e' l, Permutation a (seq 0 (List.length a)) -> List.length a = List.length ps ->
  reorder A a (flat ps ++ rest) = Ok e' -> (forall i, In i l -> i < List.length ps) ->
  s_all A zero add sub mul e' (map (fun i => nth i a 0) l) = s_all A zero add sub mul (flat ps ++ rest) l.
Proof.
  intros A zero one add mul sub opp R a ps rest e' l P L E Hl. destruct (reorder_flat A a ps rest P L) as (ps' & E' & S1 & _).
  assert (e' = flat ps' ++ rest) by congruence. subst e'.
  assert (G : forall m, (forall i, In i m -> i < List.length ps) -> Forall2 (fun i q => nth_error ps i = Some q) m (map (fun i => nth i ps (zero, zero, zero, zero)) m)).
  { induction m as [|i m IH]; intro Hm; [constructor|]. constructor; [apply nth_error_nth'; apply Hm; now left|apply IH; intros; apply Hm; now right]. }
  rewrite (s_all_total A zero one add mul sub opp R ps rest l _ (G l Hl)).
  rewrite (s_all_total A zero one add mul sub opp R ps' rest _ (map (fun i => nth i ps (zero, zero, zero, zero)) l)); [reflexivity|].
  clear E E' G. induction l as [|i l IH]; [constructor|]. cbn [map]. constructor; [|apply IH; intros; apply Hl; now right].
  assert (Hi : i < List.length ps) by (apply Hl; now left).
  rewrite (proj2 S1 i (nth i a 0)) by (apply nth_error_nth'; lia). now apply nth_error_nth'.
Qed.
Print Assumptions C44_invariance.
Example C44_invariance_example : s_all Z 0%Z Z.add Z.sub Z.mul (flat [(2, 2, 2, 8); (3, 3, 3, 9); (1, 1, 1, 7)]%Z) [2; 0] =
  s_all Z 0%Z Z.add Z.sub Z.mul (flat [(1, 1, 1, 7); (2, 2, 2, 8); (3, 3, 3, 9)]%Z) [0; 1].
Proof. vm_compute. reflexivity. Qed.

(** ** C45: generation *)
(** With a random generator: the loop ends, and adds to the list either the first N passing trials of the blocks in order,
    no more blocks being used than needed, or, with an error, all of fewer than N passing trials, the last block having
    none. The bound is 3/2 times the largest density of the first block (or 1 when not normalising). *)
Theorem C45_generation : forall (E : Type) (blocks : nat -> list (E * Q)) (value : E -> Q) (rnd : nat -> Q) normalise N l0,
  exists M l ok, bound blocks value normalise M /\
    fillEventList E blocks value rnd (S N) true normalise N l0 = Ok (l, ok) /\
    exists b,
      (ok = true /\ l = l0 ++ map (fun e => (e, value e)) (firstn N (passing rnd M (trials blocks value b) 0)) /\
        List.length l = List.length l0 + N /\ forall b', b' < b -> List.length (passing rnd M (trials blocks value b') 0) < N)
      \/ (ok = false /\ l = l0 ++ map (fun e => (e, value e)) (passing rnd M (trials blocks value (S b)) 0) /\ List.length l < List.length l0 + N /\
          passing rnd M (trials blocks value (S b)) 0 = passing rnd M (trials blocks value b) 0).
Proof.
  intros E blocks value rnd normalise N l0. destruct (fill_ok blocks value rnd normalise N l0) as (M & [l ok] & B & R & b & O).
  exists M, l, ok. split; [exact B|]. split; [exact R|]. exists b. cbn [fst snd] in O. destruct O as [(O1 & O2 & O3 & O4)|(O1 & O2 & O3 & O4)].
  - left. split; [exact O1|]. split; [exact O2|]. split; [|exact O4]. rewrite O2, app_length. unfold store. rewrite map_length, firstn_length. lia.
  - right. split; [exact O1|]. split; [exact O2|]. split; [rewrite O2, app_length; unfold store; rewrite map_length; lia|].
    rewrite trials_S, passing_app. cbn [Nat.add]. rewrite O4. apply app_nil_r.
Qed.
Print Assumptions C45_generation.
Example C45_example : fillEventList nat (fun b => [(b, 1%Q); (b + 10, 1%Q)]) (fun e => inject_Z (Z.of_nat e)) (fun _ => 1 # 2)%Q 4 true false 3 [(7, 7%Q)]
  = Ok ([(7, 7%Q); (10, 10%Q); (1, 1%Q); (11, 11%Q)], true).
Proof. vm_compute. reflexivity. Qed.

Example C45_no_random : fillEventList nat (fun b => [(b, 1%Q)]) (fun _ => 1%Q) (fun _ => 0%Q) 4 false true 3 [(7, 7%Q)] = Ok ([(7, 7%Q)], false).
Proof. vm_compute. reflexivity. Qed.

(** The bound is taken from the first block only: a trial of a later block can exceed it, and is then accepted whatever
    the random number, so the accepted sample does not follow the density (only a warning is printed). *)
Theorem C45_bound_refuted : exists (blocks : nat -> list (nat * Q)) value M, bound blocks value true M /\
  exists b p, In p (map (fun q => (fst q, value (fst q) / snd q)%Q) (blocks b)) /\ (M < snd p)%Q /\
    forall r, (0 <= r /\ r <= 1)%Q -> above M (snd p) r = true.
Proof.
  exists (fun b => [(b, 1%Q)]), (fun e => inject_Z (Z.of_nat (S e))), ((3 # 2) * inject_Z 1)%Q. split.
  - exists (inject_Z 1). split; [|reflexivity]. split; [right; now left|]. intros w [<-|[<-|[]]]; discriminate.
  - exists 5, (5, (inject_Z 6 / 1)%Q). split; [now left|]. split; [reflexivity|]. intros r [_ H]. unfold above. apply negb_true_iff, not_true_iff_false.
    intro C. apply Qle_bool_iff in C. cbn [snd] in C. assert (X : (inject_Z 6 / 1 <= 3 # 2)%Q).
    { eapply Qle_trans; [exact C|]. rewrite <- (Qmult_1_r (3 # 2)). apply Qmult_le_compat_nonneg.
      - split; discriminate.
      - split; [|exact H]. apply Qnot_lt_le. intro C'. assert (C2 : (inject_Z 6 / 1 <= 0)%Q).
        { eapply Qle_trans; [exact C|]. apply Qlt_le_weak. setoid_replace 0%Q with (((3 # 2) * inject_Z 1) * 0)%Q by reflexivity.
          apply Qmult_lt_l; [reflexivity|exact C']. }
        apply C2. reflexivity. }
    apply X. reflexivity.
Qed.
Print Assumptions C45_bound_refuted.

(** A phase space other than PhaseSpace overwrites the events, so that all indices in a block are 0; a density that looks its
    amplitudes up by index (CoherentSum) then gives every accepted event the value of the first event of the block. *)
Theorem C45_index_refuted :
  (forall values p v, nth_error values p = Some v -> stored_density true values p = Some v) /\
  (forall values p, p < List.length values -> stored_density false values p = nth_error values 0) /\
  exists values p, stored_density false values p <> nth_error values p.
Proof.
  split; [|split].
  - intros values p v H. unfold stored_density, block_indices. assert (p < List.length values) by (apply nth_error_Some; congruence).
    rewrite (nth_error_nth' _ 0) by (rewrite seq_length; lia). rewrite seq_nth by lia. exact H.
  - intros values p H. unfold stored_density, block_indices. rewrite (nth_error_nth' _ 0) by (rewrite repeat_length; lia).
    assert (N : nth p (repeat 0 (List.length values)) 0 = 0) by (apply (repeat_spec (List.length values)), nth_In; rewrite repeat_length; lia).
    now rewrite N.
  - exists [1%Q; 2%Q], 1. discriminate.
Qed.
Print Assumptions C45_index_refuted.

(** ** C68: symmetrising *)
Theorem C68_identical_only : forall (A : Type) names draws (ps : list (A * A * A * A)) rest,
  List.length names = List.length ps -> (forall g k, draws g k <= k) ->
  exists ps', symmetrise A (groups_of names) draws (flat ps ++ rest) = Ok (flat ps' ++ rest) /\ List.length ps' = List.length ps /\
    exists f g : nat -> nat, (forall i, g (f i) = i) /\ (forall i, f (g i) = i) /\
      forall i, i < List.length ps -> f i < List.length ps /\ nth_error names (f i) = nth_error names i /\ nth_error ps' (f i) = nth_error ps i.
Proof.
  intros A names draws ps rest L D. destruct (symmetrise_ok A names draws rest D (groups_of names) ps) as (ps' & R & RR).
  - intros g Hg. exact (groups_label names (List.length ps) g L Hg).
  - exists ps'. split; [exact R|]. exact RR.
Qed.
Print Assumptions C68_identical_only.
Example C68_example : symmetrise nat (groups_of [S_ "pi+"; S_ "K-"; S_ "pi+"]) (fun _ _ => 0) (flat [(1, 1, 1, 1); (2, 2, 2, 2); (3, 3, 3, 3)] ++ [8])
  = Ok (flat [(3, 3, 3, 3); (2, 2, 2, 2); (1, 1, 1, 1)] ++ [8]).
Proof. vm_compute. reflexivity. Qed.

(** Every arrangement of the momenta of one species is reached ... *)
Theorem C68_every_arrangement : forall (A : Type) g P (ps : list (A * A * A * A)) rest, NoDup g -> (forall p, In p g -> p < List.length ps) -> Permutation P g ->
  exists draw ps', (forall k, draw k <= k) /\ shuffle_from A (List.length g) 0 draw g (flat ps ++ rest) = Ok (flat ps' ++ rest) /\
    List.length ps' = List.length ps /\
    (forall k p q, nth_error g k = Some p -> nth_error P k = Some q -> nth_error ps' q = nth_error ps p) /\
    (forall p, ~ In p g -> nth_error ps' p = nth_error ps p).
Proof. exact shuffle_reaches. Qed.
Print Assumptions C68_every_arrangement.
(** ... by exactly one sequence of draws: with uniform draws all arrangements are equally likely. *)
Theorem C68_unbiased : forall (A : Type) g (ps : list (A * A * A * A)) rest d1 d2 e, NoDup g -> (forall p, In p g -> p < List.length ps) -> NoDup ps ->
  (forall k, d1 k <= k) -> (forall k, d2 k <= k) ->
  shuffle_from A (List.length g) 0 d1 g (flat ps ++ rest) = Ok e -> shuffle_from A (List.length g) 0 d2 g (flat ps ++ rest) = Ok e ->
  forall k, k < List.length g -> d1 k = d2 k.
Proof. exact shuffle_unique. Qed.
Print Assumptions C68_unbiased.
Example C68_arrangement_example : NoDup [0; 2; 3] /\ Permutation [3; 0; 2] [0; 2; 3] /\
  shuffle_from nat 3 0 (fun k => match k with 1 => 0 | 2 => 0 | _ => 0 end) [0; 2; 3] (flat [(1, 1, 1, 1); (2, 2, 2, 2); (3, 3, 3, 3); (4, 4, 4, 4)])
  = Ok (flat [(3, 3, 3, 3); (2, 2, 2, 2); (4, 4, 4, 4); (1, 1, 1, 1)]).
Proof.
  split; [|split; [|vm_compute; reflexivity]].
  - apply NoDup_cons; [cbn; lia|]. apply NoDup_cons; [cbn; lia|]. apply NoDup_cons; [intros []|constructor].
  - change [3; 0; 2] with ([3] ++ [0; 2]). apply (Permutation_app_comm [3] [0; 2]).
Qed.
