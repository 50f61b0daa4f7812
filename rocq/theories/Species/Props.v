(** C51: particles and antiparticles; C52: spins as text. *)
From Verif.Events Require Import Format.
From Verif.Utilities Require Import Model Spec Proofs Proofs2.
From Verif.Quarks Require Import Model Spec Proofs.
From Verif.Species Require Import Model Spec Proofs.
Notation to_string := Verif.Events.Model.to_string.

(** ** C51 *)
(** The antiparticle of an entry with a distinct one is its conjugate, and its antiparticle is the entry again; an entry without stays as it is. The charge
    stays the one the sign stands for. *)
Theorem C51_anti (e : entry) (c : ascii) : aformat e = Some c -> contents (quarkContent e) ->
  (c <> " "%char -> exists e', antiThis e = Ok (true, e') /\ antiThis e' = Ok (true, e) /\ conjugates e e'
                     /\ (charge e = charge_from_string (chargeString e) -> charge e' = charge_from_string (chargeString e')))
  /\ (c = " "%char -> antiThis e = Ok (false, e)).
Proof.
  intros A [_ C]. unfold antiThis, has_distinct_anti. rewrite A. cbn [bind]. split.
  - intros N. destruct (Ascii.eqb_spec c " "); [congruence|]. cbn [negb]. exists (anti_entry e). split; auto. split; [|split; [apply conjugates_anti|]].
    + change (aformat (anti_entry e)) with (aformat e). rewrite A. cbn [bind]. destruct (Ascii.eqb_spec c " "); [congruence|]. cbn [negb]. rewrite anti_twice; auto.
    + intros H. cbn [charge chargeString anti_entry]. rewrite charge_swap. lia.
  - intros ->. reflexivity.
Qed.
Print Assumptions C51_anti.

(** The names: an antiparticle written with "bar" (format F) always has another name; one written with the charge only if there is a sign to exchange. *)
Theorem C51_names (e : entry) (c : ascii) : aformat e = Some c -> customName e = false -> (0 < eid e)%Z ->
  full_name e = Ok (ename e ++ chargeString e)
  /\ full_name (anti_entry e) = Ok (ename e ++ (if Ascii.eqb c "F" then S_ "bar" else []) ++ swapChars (chargeString e) "+" "-")
  /\ (full_name (anti_entry e) = full_name e <-> c <> "F"%char /\ ~ In "+"%char (chargeString e) /\ ~ In "-"%char (chargeString e)).
Proof.
  intros A Cu P. unfold full_name. cbn [customName eid aformat anti_entry ename chargeString]. rewrite A, Cu.
  replace (Z.ltb (eid e) 0) with false by (symmetry; apply Z.ltb_ge; lia). replace (Z.ltb (-1 * eid e) 0) with true by (symmetry; apply Z.ltb_lt; lia).
  split; auto. split; auto. destruct (Ascii.eqb_spec c "F") as [-> |N].
  - split; [|tauto]. intros H. exfalso. assert (H' : ename e ++ S_ "bar" ++ swapChars (chargeString e) "+" "-" = ename e ++ chargeString e) by congruence.
    apply app_inv_head in H'. apply (f_equal (@List.length ascii)) in H'. rewrite app_length in H'. unfold swapChars in H'. rewrite map_length in H'. cbn in H'. lia.
  - cbn [app]. rewrite <- swap_eq. split.
    + intros H. split; auto. assert (H' : ename e ++ swapChars (chargeString e) "+" "-" = ename e ++ chargeString e) by congruence. apply app_inv_head in H'. auto.
    + intros [_ ->]. reflexivity.
Qed.
Print Assumptions C51_names.

(** Reading any file and setting up the maps is defined. A name or an id found belongs to the entry returned, and every entry of the file can be found by a
    name and an id. *)
Theorem C51_table (labels : list (Z * (str * str))) (lines : list str) :
  exists es t, read_lines labels lines = Ok es /\ make_table es = Ok t
  /\ (forall n e, find_name t n = Some e -> In e es /\ full_name e = Ok n)
  /\ (forall id e, find_id t id = Some e -> In e es /\ eid e = id)
  /\ (forall e, In e es -> exists n e1 e2, full_name e = Ok n /\ find_name t n = Some e1 /\ find_id t (eid e) = Some e2)
  /\ (forall P, In P (described lines) -> exists e, In e es /\ e = set_label (label e) P /\
        (aformat P <> Some " "%char -> exists e', In e' es /\ conjugates P e')).
Proof.
  exists (flat_map (pair_of labels) (described lines)).
  assert (Nm : Forall named (flat_map (pair_of labels) (described lines))).
  { apply Forall_forall. intros e He. apply in_flat_map in He as (P & _ & He). apply (pair_named labels P e He). }
  destruct (table_ok _ Nm) as (t & Et & T1 & T2 & T3 & T4). exists t. split; [apply read_lines_ok|]. split; [exact Et|]. split; [exact T1|]. split; [exact T3|]. split.
  - intros e He. rewrite Forall_forall in Nm. destruct (full_name_ok e (Nm e He)) as [n En]. destruct (T2 e n He En) as [e1 F1]. destruct (T4 e He) as [e2 F2]. exists n, e1, e2. auto.
  - intros P HP. destruct (described_ok lines P HP) as (A & _ & _ & _).
    assert (G : forall x, In x (pair_of labels P) -> In x (flat_map (pair_of labels) (described lines))) by (intros x Hx; apply in_flat_map; eauto).
    destruct (aformat P) as [c|] eqn:Q; [|congruence]. unfold pair_of in G. rewrite Q in G.
    set (P1 := match find_label labels (eid P) with Some (a, _) => set_label a P | None => P end) in *.
    assert (E1 : P1 = set_label (label P1) P). { unfold P1. destruct (find_label labels (eid P)) as [[a b]|]; destruct P; reflexivity. }
    exists P1. split; [apply G; destruct (Ascii.eqb c " "); left; auto|]. split; [exact E1|]. intros N.
    destruct (Ascii.eqb_spec c " ") as [-> |C]; [congruence|]. eexists. split; [apply G; right; left; reflexivity|].
    assert (K : forall b, conjugates P (set_label b (anti_entry P1))). { intros b. pose proof (conjugates_label (label P) b P) as K. replace (set_label (label P) P) with P in K by (destruct P; reflexivity).
      replace (set_label b (anti_entry P1)) with (set_label b (anti_entry P)); [exact K|]. rewrite E1. destruct P; reflexivity. }
    destruct (find_label labels (eid P)) as [[a b]|]; [apply K|]. replace (anti_entry P1) with (set_label (label P1) (anti_entry P1)) by (destruct P1; reflexivity). apply K.
Qed.
Print Assumptions C51_table.

(** If every line has an id of its own, not zero, then an id finds its entry, and conjugation exchanges particle and antiparticle. *)
Theorem C51_conjugation (labels : list (Z * (str * str))) (lines : list str) : identified lines ->
  exists es t, read_lines labels lines = Ok es /\ make_table es = Ok t
  /\ (forall e, In e es -> find_id t (eid e) = Some e)
  /\ forall e, In e es -> exists e', conj_entry t e = Ok e' /\ In e' es /\ conj_entry t e' = Ok e /\ (aformat e = Some " "%char /\ e' = e \/ aformat e <> Some " "%char /\ conjugates e e').
Proof. exact (table_conj labels lines). Qed.
Print Assumptions C51_conjugation.

Definition pi_lines : list str := map S_
 ["1.3957018E+02 ,3.5E-04,3.5E-04,2.5452E-14  ,5.0E-18,5.0E-18,1  ,-,0   ,-, ,B,    211,   +, ,R,pi               ,uD              ";
  "1.349766E+02  ,6.0E-04,6.0E-04,7.9E-06     ,6.0E-07,6.0E-07,1  ,-,0   ,-,+, ,    111,   0, ,R,pi               ,(uU-dD)/sqrt(2) "]%string.
Definition a1_line : str := S_ "1.23E+03      ,4.0E+01,4.0E+01,4.2E+02     ,1.8E+02,1.8E+02,1  ,-,1   ,+,+,B,  20113,   0, ,R,a(1)(1260)       ,(uU-dD)/sqrt(2) ".
Definition K1630_line : str := S_ "1.629E+03     ,7.0E+00,7.0E+00,1.6E+01     ,1.9E+01,1.6E+01,1/2, ,?   ,?, ,F,       ,   +, ,S,K(1630)          ,uS              ".
Definition phi2170_line : str := S_ "2.175E+03     ,1.5E+01,1.5E+01,6.1E+01     ,1.8E+01,1.8E+01,0  ,-,1   ,-, ,B,       ,   +, ,S,phi(2170)        ,uD              ".

(** Two lines of options/mass_width.csv. *)
Example C51_example :
  identified pi_lines /\ map eid (described pi_lines) = [211; 111]%Z
  /\ exists es t a b, read_lines [] pi_lines = Ok es /\ make_table es = Ok t /\ List.length es = 3
     /\ find_name t (S_ "pi+") = Some a /\ find_name t (S_ "pi-") = Some b /\ conj_entry t a = Ok b /\ charge b = (-1)%Z /\ quarkContent b = [read_state (S_ "Ud")].
Proof.
  split; [|split; [vm_compute; reflexivity|]].
  - unfold identified. replace (described pi_lines) with (ltac:(let x := eval vm_compute in (described pi_lines) in exact x)) by (vm_compute; reflexivity). cbn. split.
    + repeat constructor; cbn; intuition discriminate.
    + repeat constructor; discriminate.
  - let x := eval vm_compute in (read_lines [] pi_lines) in match x with Ok ?es => exists es; let y := eval vm_compute in (make_table es) in match y with Ok ?t => exists t end end.
    eexists. eexists. repeat split; vm_compute; reflexivity.
Qed.

(** a(1)(1260)0 is listed in options/mass_width.csv with an antiparticle written by its charge (format B), which has no sign: both entries have the same name,
    and the name finds the antiparticle, with id -20113. *)
Theorem C51_names_refuted : exists es t e a, read_lines [] [a1_line] = Ok es /\ make_table es = Ok t
  /\ nth_error es 0 = Some e /\ eid e = 20113%Z /\ full_name e = Ok (S_ "a(1)(1260)0")
  /\ find_name t (S_ "a(1)(1260)0") = Some a /\ eid a = (-20113)%Z.
Proof.
  let x := eval vm_compute in (read_lines [] [a1_line]) in match x with Ok ?es => exists es; let y := eval vm_compute in (make_table es) in match y with Ok ?t => exists t end end.
  eexists. eexists. repeat split; vm_compute; reflexivity.
Qed.
Print Assumptions C51_names_refuted.

(** Entries of options/mass_width.csv without an id have id 0: the conjugate of phi(2170)+ is looked up as -0 = 0 and gives the last entry without id, here
    the K(1630)bar-. *)
Theorem C51_conjugation_refuted : exists es t e e', read_lines [] [phi2170_line; K1630_line] = Ok es /\ make_table es = Ok t
  /\ find_name t (S_ "phi(2170)+") = Some e /\ conj_entry t e = Ok e' /\ ~ conjugates e e' /\ ename e' = S_ "K(1630)".
Proof.
  let x := eval vm_compute in (read_lines [] [phi2170_line; K1630_line]) in match x with Ok ?es => exists es; let y := eval vm_compute in (make_table es) in match y with Ok ?t => exists t end end.
  eexists. eexists. split; [vm_compute; reflexivity|]. split; [vm_compute; reflexivity|]. split; [vm_compute; reflexivity|]. split; [vm_compute; reflexivity|]. split; [|vm_compute; reflexivity].
  intros [_ _ _ _ _ [H _]]. discriminate H.
Qed.
Print Assumptions C51_conjugation_refuted.

(** A particle added by the user has an uninitialised antiparticle format: asking for its antiparticle, or conjugating a decay with it, is undefined. *)
Theorem C51_added (t : table) (n : str) (props : list str) (t' : table) : find_name t n = None -> lookup str_eqb n (byName t) = None ->
  add_particle t (S_ "Particle" :: n :: props) = Ok t' ->
  exists e, find_name t' n = Some e /\ has_distinct_anti e = UB /\ antiThis e = UB /\ conj_entry t' e = UB.
Proof.
  intros _ L H. unfold add_particle in H. rewrite L in H. cbn [bind set_property] in H.
  assert (Inv : forall k v e e', set_property k v e = Ok e' -> aformat e' = aformat e).
  { intros k v e e'. unfold set_property. repeat (match goal with |- context [if ?b then _ else _] => destruct b end; [intros E; injection E as <-; reflexivity|]).
    destruct (str_eqb k (S_ "quarks")); [|intros E; injection E as <-; reflexivity]. destruct (read_content _ _); cbn [bind]; try discriminate. intros E; injection E as <-; reflexivity. }
  assert (Invs : forall m l e e', List.length l <= m -> set_properties l e = Ok e' -> aformat e' = aformat e).
  { induction m as [|m IH]; intros [|k [|v l]] e e' Hm E; cbn in Hm; try lia; cbn [set_properties] in E; try discriminate; try (injection E as <-; reflexivity).
    destruct (set_property k v e) as [e1| | |] eqn:E1; try discriminate. cbn [bind] in E. rewrite (IH l e1 e' ltac:(lia) E). apply (Inv k v), E1. }
  destruct (set_property (S_ "name") n blank_entry) as [e0| | |] eqn:E0; try discriminate. cbn [bind] in H.
  destruct (set_properties props e0) as [e1| | |] eqn:E1; try discriminate. cbn [bind] in H. injection H as <-. exists e1.
  assert (A : aformat e1 = None) by (rewrite (Invs _ props e0 e1 (le_n _) E1); rewrite (Inv _ _ _ _ E0); reflexivity).
  split.
  - unfold find_name. cbn [byName lookup heap]. rewrite str_eqb_refl. rewrite nth_error_app2 by lia. rewrite Nat.sub_diag. reflexivity.
  - unfold antiThis, conj_entry, has_distinct_anti. rewrite A. auto.
Qed.
Print Assumptions C51_added.
(** A particle Zprime with a mass and a spin added by the user: whether it has an antiparticle is read from an uninitialised character. *)
Theorem C51_added_refuted : exists tokens t' e, lookup str_eqb (S_ "Zprime") [] = (None : option nat) /\ tokens = map S_ ["Particle"; "Zprime"; "mass"; "1000"; "spin"; "1"]%string
  /\ add_particle (Table [] [] []) tokens = Ok t' /\ find_name t' (S_ "Zprime") = Some e /\ twoSpin e = 2%Z /\ has_distinct_anti e = UB.
Proof. eexists. eexists. eexists. repeat split; reflexivity. Qed.
Print Assumptions C51_added_refuted.

(** An alias stands for a copy of the particle under another name; all other names and all ids find what they found before. *)
Theorem C51_alias (t : table) (n alias : str) : (forall m i, In (m, i) (byName t) -> i < List.length (heap t)) -> (forall z i, In (z, i) (byID t) -> i < List.length (heap t)) ->
  (find_name t n = None -> make_alias t n alias = t)
  /\ forall e, find_name t n = Some e -> exists a, find_name (make_alias t n alias) alias = Some a /\ full_name a = Ok alias
     /\ eid a = eid e /\ twoSpin a = twoSpin e /\ parity a = parity e /\ charge a = charge e /\ chargeString a = chargeString e /\ quarkContent a = quarkContent e /\ rest a = rest e
     /\ (forall m, m <> alias -> find_name (make_alias t n alias) m = find_name t m) /\ (forall z, find_id (make_alias t n alias) z = find_id t z).
Proof.
  intros HN HI. split; [intro F; unfold make_alias; now rewrite F|]. intros e F. unfold make_alias. rewrite F. eexists. split.
  - unfold find_name. cbn [byName heap lookup]. rewrite str_eqb_refl, nth_error_app2, Nat.sub_diag by lia. reflexivity.
  - repeat (split; [reflexivity|]). split.
    + intros m Hm. unfold find_name. cbn [byName heap lookup]. replace (str_eqb m alias) with false by (symmetry; now apply str_eqb_neq).
      destruct (lookup str_eqb m (byName t)) as [i|] eqn:L; [|reflexivity]. apply (lookup_in _ str_eqb_eq) in L. apply nth_error_app1. exact (HN _ _ L).
    + intro z. unfold find_id. cbn [byID heap]. destruct (lookup Z.eqb z (byID t)) as [i|] eqn:L; [|reflexivity]. apply (lookup_in _ Z.eqb_eq) in L. apply nth_error_app1. exact (HI _ _ L).
Qed.
Print Assumptions C51_alias.
(** The alias of a charged particle is its own antiparticle: makeAlias removes the mark of a distinct antiparticle but keeps charge and quarks. *)
Theorem C51_alias_refuted : exists es t e a, read_lines [] pi_lines = Ok es /\ make_table es = Ok t
  /\ find_name t (S_ "pi+") = Some e /\ find_name (make_alias t (S_ "pi+") (S_ "soft")) (S_ "soft") = Some a /\ charge a = 1%Z
  /\ conj_entry (make_alias t (S_ "pi+") (S_ "soft")) a = Ok a /\ ~ conjugates a a.
Proof.
  let x := eval vm_compute in (read_lines [] pi_lines) in match x with Ok ?es => exists es; let y := eval vm_compute in (make_table es) in match y with Ok ?t => exists t end end.
  eexists. eexists. split; [vm_compute; reflexivity|]. split; [vm_compute; reflexivity|]. split; [vm_compute; reflexivity|]. split; [vm_compute; reflexivity|]. split; [reflexivity|]. split; [vm_compute; reflexivity|].
  intros H. pose proof (c_charge _ _ H) as C. discriminate C.
Qed.
Print Assumptions C51_alias_refuted.

(** Adding a particle with a key that has no value reads past the end of the list of words, after an error message. *)
Theorem C51_odd (t : table) (n : str) (props : list str) :
  (forall n i, In (n, i) (byName t) -> i < List.length (heap t)) -> Nat.Odd (List.length props) -> add_particle t (S_ "Particle" :: n :: props) = UB.
Proof.
  intros V O. unfold add_particle.
  assert (S : forall m l e, List.length l <= m -> Nat.Odd (List.length l) -> set_properties l e = UB).
  { clear. assert (Good : forall k v e, exists e', set_property k v e = Ok e').
    { intros k v e. unfold set_property. repeat (match goal with |- context [if ?b then _ else _] => destruct b end; [solve [eauto]|]).
      destruct (str_eqb k (S_ "quarks")); [|eauto]. unfold read_content. destruct (contains _ v); [cbn; eauto|].
      destruct (replaceAll_terminates (S_ "sqrt") [] v ltac:(discriminate) ltac:(cbn; lia) (S (List.length v)) ltac:(lia)) as [r ->]. cbn. eauto. }
    induction m as [|m IH]; intros [|k [|v l]] e Hm [q Hq]; cbn in Hm, Hq; try lia; auto. cbn [set_properties].
    destruct (Good k v e) as [e' ->]. cbn [bind]. apply IH; [lia|]. exists (q - 1). lia. }
  destruct (lookup str_eqb n (byName t)) as [i|] eqn:L.
  - apply (lookup_in _ str_eqb_eq) in L. apply V in L. destruct (nth_error (heap t) i) as [e|] eqn:E; [|reflexivity]. rewrite (S _ props e (le_n _) O). reflexivity.
  - assert (N0 : exists e0, set_property (S_ "name") n blank_entry = Ok e0) by (eexists; reflexivity). destruct N0 as [e0 ->]. cbn [bind]. rewrite (S _ props _ (le_n _) O). reflexivity.
Qed.
Print Assumptions C51_odd.
(** "Particle Zprime mass": the key without value is only reported, then the words are read past the end. *)
Theorem C51_odd_refuted : exists props, Nat.Odd (List.length props) /\ add_particle (Table [] [] []) (S_ "Particle" :: S_ "Zprime" :: props) = UB.
Proof. exists [S_ "mass"]. split; [exists 0; reflexivity|reflexivity]. Qed.
Print Assumptions C51_odd_refuted.

(** Among particles that all have an id, or all have none, [operator<] is a strict weak order in which exactly the equal ones are not ordered. *)
Theorem C51_order_partial (none : bool) : let S (a : Z * str) := if none then fst a = 0%Z else fst a <> 0%Z in
  strict_weak S prop_lt
  /\ forall a b, S a -> S b -> (prop_eq a b = true <-> prop_lt a b = false /\ prop_lt b a = false) /\ prop_gt a b = prop_lt b a /\ prop_le a b = negb (prop_gt a b) /\ prop_ge a b = negb (prop_lt a b).
Proof.
  assert (E : forall a b : Z * str, (if none then fst a = 0%Z else fst a <> 0%Z) -> (if none then fst b = 0%Z else fst b <> 0%Z) ->
    prop_lt a b = (if none then str_ltb (snd a) (snd b) else Z.ltb (fst a) (fst b)) /\ prop_eq a b = (if none then str_eqb (snd a) (snd b) else Z.eqb (fst a) (fst b))).
  { intros a b Ha Hb. unfold prop_lt, prop_eq. destruct none.
    - rewrite Ha, Hb. auto.
    - apply Z.eqb_neq in Ha, Hb. rewrite Ha, Hb. auto. }
  cbv zeta. split; [constructor|].
  - intros a Ha. destruct (E a a Ha Ha) as [-> _]. destruct none; [apply str_ltb_irrefl|apply Z.ltb_irrefl].
  - intros a b c Ha Hb Hc. destruct (E a b Ha Hb) as [-> _]. destruct (E b c Hb Hc) as [-> _]. destruct (E a c Ha Hc) as [-> _].
    destruct none; [apply str_ltb_trans|rewrite !Z.ltb_lt; lia].
  - intros a b c Ha Hb Hc. destruct (E a b Ha Hb) as [-> _]. destruct (E b c Hb Hc) as [-> _]. destruct (E a c Ha Hc) as [-> _]. destruct (E b a Hb Ha) as [-> _]. destruct (E c b Hc Hb) as [-> _].
    destruct none; [|rewrite !Z.ltb_ge; lia]. intros H1 H2 H3 H4. rewrite (str_ltb_total _ _ H1 H2). exact H3.
  - intros a b Ha Hb. unfold prop_gt, prop_le, prop_ge, prop_gt. destruct (E a b Ha Hb) as [-> ->]. destruct (E b a Hb Ha) as [-> _]. destruct none.
    + assert (T : str_eqb (snd a) (snd b) = negb (str_ltb (snd a) (snd b)) && negb (str_ltb (snd b) (snd a))).
      { destruct (str_eqb_spec (snd a) (snd b)) as [-> |N]; [rewrite str_ltb_irrefl; reflexivity|].
        destruct (str_ltb (snd a) (snd b)) eqn:L1; cbn; auto. destruct (str_ltb (snd b) (snd a)) eqn:L2; cbn; auto. exfalso. apply N. apply str_ltb_total; auto. }
      assert (As : str_ltb (snd a) (snd b) = true -> str_ltb (snd b) (snd a) = false).
      { intros H. destruct (str_ltb (snd b) (snd a)) eqn:L; auto. pose proof (str_ltb_trans _ _ _ H L) as X. rewrite str_ltb_irrefl in X. discriminate. }
      rewrite T. destruct (str_ltb (snd a) (snd b)) eqn:L1; destruct (str_ltb (snd b) (snd a)) eqn:L2; cbn; try (specialize (As eq_refl); discriminate); intuition discriminate.
    + destruct (Z.ltb_spec (fst a) (fst b)); destruct (Z.ltb_spec (fst b) (fst a)); destruct (Z.eqb_spec (fst a) (fst b)); cbn; try lia; intuition discriminate.
Qed.
Print Assumptions C51_order_partial.
Example C51_order_example : (if false then fst (211%Z, S_ "pi+") = 0%Z else fst (211%Z, S_ "pi+") <> 0%Z) /\ prop_lt (111%Z, S_ "pi0") (211%Z, S_ "pi+") = true.
Proof. split; [discriminate|reflexivity]. Qed.

(** A particle without id among others is compared by its name: three particles in a cycle; and one as large as, yet "greater" than, the other both ways. *)
Theorem C51_order_refuted :
  (exists a b c, prop_lt a b = true /\ prop_lt b c = true /\ prop_lt c a = true)
  /\ exists a b, prop_gt a b = true /\ prop_gt b a = true.
Proof.
  split; [exists (113%Z, S_ "rho(770)0"), (323%Z, S_ "K*(892)+"), (0%Z, S_ "phi(2170)+"); vm_compute; auto|].
  exists (113%Z, S_ "rho(770)0"), (0%Z, S_ "rho(770)0"). vm_compute. auto.
Qed.
Print Assumptions C51_order_refuted.

(** ** C52 *)
Lemma find_slash n t : find_char "/"%char (to_string n ++ "/"%char :: t) = Some (List.length (to_string n)).
Proof. apply find_char_app. apply to_string_no. reflexivity. Qed.

Lemma to_string_not_question n t : str_eqb (to_string n ++ t) (S_ "?") = false.
Proof.
  apply str_eqb_neq. destruct (to_string_cons n) as (c & u & E & D). rewrite E. intros H. injection H as H _. subst c. discriminate D.
Qed.

(** Texts "n" and "n/2" are read as the spin they denote. *)
Theorem C52_read (unknown : Z) (n : nat) :
  denotes (to_string n) (read_spin unknown (to_string n)) /\ denotes (to_string n ++ S_ "/2") (read_spin unknown (to_string n ++ S_ "/2")).
Proof.
  split.
  - exists (Z.of_nat n), 1%Z. split; [constructor|]. unfold read_spin. rewrite <- (app_nil_r (to_string n)), to_string_not_question, app_nil_r.
    replace (find_char "/" (to_string n)) with (@None nat). 2: { symmetry. apply find_char_None. apply to_string_no. reflexivity. }
    rewrite <- (app_nil_r (to_string n)), strtol_to_string by discriminate. lia.
  - exists (Z.of_nat n), 2%Z. split; [apply (fr_ratio n 2); discriminate|]. unfold read_spin. rewrite to_string_not_question. change (S_ "/2") with ("/"%char :: ["2"%char]). rewrite find_slash.
    rewrite firstn_app, Nat.sub_diag, firstn_all, firstn_O. rewrite strtol_to_string by discriminate. lia.
Qed.
Print Assumptions C52_read.

(** An integer spin is printed as itself, and read back from the text. *)
Theorem C52_J_partial (e : entry) (n : nat) (unknown : Z) : twoSpin e = (2 * Z.of_nat n)%Z -> denotes (J e) (twoSpin e) /\ read_spin unknown (J e) = twoSpin e.
Proof.
  intros H. assert (E : J e = to_string n).
  { unfold J. replace (Z.eqb (twoSpin e) (-1)) with false by (symmetry; apply Z.eqb_neq; lia).
    assert (R : Z.rem (twoSpin e) 2 = 0%Z) by (rewrite H, Z.mul_comm; apply Z.rem_mul; lia). assert (Q : Z.quot (twoSpin e) 2 = Z.of_nat n) by (rewrite H, Z.mul_comm; apply Z.quot_mul; lia).
    rewrite R, Q. cbn [Z.eqb]. unfold to_string_Z. replace (Z.ltb (Z.of_nat n) 0) with false by (symmetry; apply Z.ltb_ge; lia). rewrite Nat2Z.id. reflexivity. }
  rewrite E. destruct (C52_read unknown n) as [(a & b & F & D) _]. split; [exists (Z.of_nat n), 1%Z; split; [constructor|lia]|].
  unfold read_spin. rewrite <- (app_nil_r (to_string n)), to_string_not_question, app_nil_r.
  replace (find_char "/" (to_string n)) with (@None nat). 2: { symmetry. apply find_char_None. apply to_string_no. reflexivity. }
  rewrite <- (app_nil_r (to_string n)), strtol_to_string by discriminate. lia.
Qed.
Print Assumptions C52_J_partial.
Example C52_example : J (Entry [] 0 4 0 0 [] None [] [] false []) = S_ "2" /\ twoSpin (Entry [] 0 4 0 0 [] None [] [] false []) = (2 * Z.of_nat 2)%Z.
Proof. split; reflexivity. Qed.

(** No half-integer spin is printed correctly: 1/2 is printed as "0/2", 3/2 as "1/2", and reading the text back gives another spin. *)
Theorem C52_J_half (e : entry) (n : nat) (unknown : Z) : twoSpin e = (2 * Z.of_nat n + 1)%Z ->
  J e = to_string n ++ S_ "/2" /\ ~ denotes (J e) (twoSpin e) /\ read_spin unknown (J e) <> twoSpin e.
Proof.
  intros H. assert (E : J e = to_string n ++ S_ "/2").
  { unfold J. replace (Z.eqb (twoSpin e) (-1)) with false by (symmetry; apply Z.eqb_neq; lia).
    assert (Q : Z.quot (twoSpin e) 2 = Z.of_nat n) by (symmetry; apply Z.quot_unique_exact with 1%Z || (apply (Z.quot_unique _ _ _ 1%Z); lia)).
    assert (R : Z.rem (twoSpin e) 2 = 1%Z) by (pose proof (Z.quot_rem' (twoSpin e) 2); lia).
    rewrite R, Q. cbn [Z.eqb]. unfold to_string_Z. replace (Z.ltb (Z.of_nat n) 0) with false by (symmetry; apply Z.ltb_ge; lia). rewrite Nat2Z.id. reflexivity. }
  rewrite E. split; auto. split.
  - intros (a & b & F & D). assert (F' : exists s, s = to_string n ++ S_ "/2" /\ fraction s a b) by eauto. destruct F' as (s & Es & F').
    destruct F' as [m|m d Hd].
    + apply (to_string_no m "/"%char eq_refl). rewrite Es. apply in_or_app. right. left. reflexivity.
    + change (to_string m ++ "/"%char :: to_string d = to_string n ++ "/"%char :: S_ "2") in Es. apply split_unique in Es as [E1 E2]; try (apply to_string_no; reflexivity).
      apply to_string_inj in E1. change (S_ "2") with (to_string 2) in E2. apply to_string_inj in E2. subst. lia.
  - unfold read_spin. rewrite to_string_not_question. change (S_ "/2") with ("/"%char :: ["2"%char]). rewrite find_slash.
    rewrite firstn_app, Nat.sub_diag, firstn_all, firstn_O. rewrite strtol_to_string by discriminate. lia.
Qed.
Print Assumptions C52_J_half.
(** The spin of the neutron is printed as 0/2, that of a Delta as 1/2. *)
Theorem C52_J_refuted : exists n D, twoSpin n = 1%Z /\ twoSpin D = 3%Z /\ J n = S_ "0/2" /\ J D = S_ "1/2" /\ ~ denotes (J n) (twoSpin n) /\ ~ denotes (J D) (twoSpin D).
Proof.
  exists (Entry [] 2112 1 0 0 [] None [] [] false []), (Entry [] 2224 3 0 0 [] None [] [] false []). repeat split; try reflexivity.
  - apply (C52_J_half _ 0 0). reflexivity.
  - apply (C52_J_half _ 1 0). reflexivity.
Qed.
Print Assumptions C52_J_refuted.

(** Spins 0, 1/2, 1 and 2 have the right number of polarisation states, the photon two; integer spins every projection. *)
Theorem C52_polarisations_partial (e : entry) : (twoSpin e = 0 \/ twoSpin e = 1 \/ twoSpin e = 2 \/ twoSpin e = 4)%Z ->
  NoDup (polarisations e)
  /\ (eid e <> 22%Z -> Z.of_nat (List.length (polarisations e)) = (twoSpin e + 1)%Z
      /\ (twoSpin e <> 1%Z -> forall m, In m (polarisations e) <-> (- twoSpin e <= 2 * m <= twoSpin e)%Z))
  /\ (eid e = 22%Z -> twoSpin e = 2%Z -> polarisations e = [1; -1]%Z).
Proof.
  intros H. split; [|split].
  - unfold polarisations. destruct H as [H|[H|[H|H]]]; rewrite H; cbn [Z.eqb Pos.eqb]; destruct (Z.eqb (eid e) 22); repeat apply NoDup_cons; try apply NoDup_nil; cbn; intuition discriminate.
  - intros N. apply Z.eqb_neq in N. unfold polarisations. rewrite N. destruct H as [H|[H|[H|H]]]; rewrite H; cbn [Z.eqb Pos.eqb]; (split; [reflexivity|]); try congruence; intros _ m; cbn [In]; lia.
  - intros E T. unfold polarisations. rewrite E, T. reflexivity.
Qed.
Print Assumptions C52_polarisations_partial.
Example C52_polarisations_example : polarisations (Entry [] 113 2 0 0 [] None [] [] false []) = [1; 0; -1]%Z.
Proof. reflexivity. Qed.

(** Other spins have one state only, after a warning: a Delta (spin 3/2) has one instead of four. *)
Theorem C52_polarisations_other (e : entry) : (twoSpin e = 3 \/ 5 <= twoSpin e)%Z -> eid e <> 22%Z -> polarisations e = [0]%Z.
Proof.
  intros H N. unfold polarisations. apply Z.eqb_neq in N. rewrite N.
  do 4 (match goal with |- context [Z.eqb (twoSpin e) ?k] => replace (Z.eqb (twoSpin e) k) with false by (symmetry; apply Z.eqb_neq; lia) end). reflexivity.
Qed.
Print Assumptions C52_polarisations_other.
(** A Delta (spin 3/2) gets one polarisation state instead of four, after a warning. *)
Theorem C52_polarisations_refuted : exists e, twoSpin e = 3%Z /\ polarisations e = [0]%Z.
Proof. exists (Entry [] 2224 3 0 0 [] None [] [] false []). split; reflexivity. Qed.
Print Assumptions C52_polarisations_refuted.
