From Verif.Descriptor Require Import Model Spec Proofs.
From Verif.Utilities Require Import Model.

(** The names registered as lineshapes (src/Lineshapes/*.cpp, src/Lineshapes.cpp). *)
Definition the_shapes : list str := map S_ ["BW"; "Bugg"; "CoupledChannel"; "DecaySpline"; "EtaDalitz"; "ExpFF"; "FOCUS"; "Flatte"; "FormFactor"; "FormFactorSpline"; "GLASS"; "GSpline"; "Gaussian"; "GenericKmatrix"; "GounarisSakurai";
  "InelasticSpline"; "Isotensor"; "LASS"; "MIPWA"; "None"; "NonRelBW"; "PALANO"; "Photon"; "Poly"; "PolyNR"; "SBW"; "TD"; "kMatrix"; "kMatrixSimple"]%string.
Definition the_names : list str := map S_ ["D0"; "K-"; "pi+"; "pi-"; "rho(770)0"; "a(1)(1260)+"; "K(0)*(1430)bar0"]%string.
Definition the_world : world := World the_shapes [] (fun n => existsb (str_eqb n) the_names) (fun n => str_eqb n (S_ "D0")) (fun _ => false)
  (fun t => let '(Names n ds) := t in if str_eqb n (S_ "rho(770)0") then 1%Z else if str_eqb n (S_ "D0") then 1%Z else 0%Z).
Definition leaf n := Tree (S_ n) [] [].
Definition a1 := Tree (S_ "D0") [S_ "P"; S_ "Inco"; S_ "CP=-1"] [leaf "K-"; Tree (S_ "a(1)(1260)+") [S_ "GSpline.EFF"; S_ "D"] [Tree (S_ "rho(770)0") [S_ "GounarisSakurai"; S_ "unused"] [leaf "pi+"; leaf "pi-"]; leaf "pi+"]].

Lemma the_shapes_ok : shapes_ok the_shapes.
Proof.
  intros n I. unfold the_shapes in I. cbn [map In] in I.
  repeat destruct I as [<- | I]; try destruct I;
    (split; [cbn; lia|]; split; [cbn; intuition discriminate|]; split; [cbn; intuition discriminate|];
     split; [intros o c Ho E; cbn in Ho; repeat destruct Ho as [<- | Ho]; try destruct Ho; discriminate|]; repeat split; discriminate).
Qed.
Lemma the_world_ok : world_ok the_world.
Proof. split; [exact the_shapes_ok|]. split; [intros a []|]. split; [intros a []|]. split; intros []. Qed.
Lemma parse_keeps sh m st : modifiers (parseModifier sh m st) = modifiers st.
Proof.
  assert (C : forall c s, modifiers (parse_char c s) = modifiers s) by (intros c s; unfold parse_char; destruct (find_char c orbitals); reflexivity).
  assert (O : forall c s, modifiers (parse_one sh c s) = modifiers s) by (intros c s; unfold parse_one; destruct (isLineshape sh [c]); [reflexivity|apply C]).
  assert (E : modifiers (if isLineshape sh m then set_lineshape m st else match m with [c] => parse_char c st | [c; d] => parse_one sh d (parse_one sh c st) | _ => st end) = modifiers st).
  { destruct (isLineshape sh m); [reflexivity|]. destruct m as [|a [|b [|]]]; rewrite ?O, ?C; reflexivity. }
  unfold parseModifier. destruct (split m "=" true) as [|k [|v [|]]]; try exact E. destruct (str_eqb k (S_ "vertex")); [reflexivity|exact E].
Qed.
Lemma read_keeps sh l st : modifiers (fold_left (fun st m => parseModifier sh m st) l st) = modifiers st.
Proof. revert st; induction l as [|m r IH]; intro st; [reflexivity|]. cbn [fold_left]. now rewrite IH, parse_keeps. Qed.

(** The text of a decay tree of any depth is read as that tree: its names, its modifiers and its daughters in order. *)
Theorem C55_read : forall w t, tree_ok w t -> forall fuel, height t <= fuel ->
  exists a, build w fuel (text t) = Ok (Some a) /\ represents w t a.
Proof.
  intros w t H fuel F. exists (made w t). split; [now apply build_text|]. clear F fuel.
  induction t as [n mods ds IH] using tree_ind'. inversion H as [? ? ? Hn Hk Hm Hv Hl Hd]; subst. cbn [made]. constructor.
  - cbn [state_of pdgLookup modifiers]. unfold read_modifiers. apply read_keeps.
  - reflexivity.
  - clear - IH Hd. induction ds as [|d r IHr]; [constructor|]. cbn [map]. constructor; [exact (Forall_inv IH (Forall_inv Hd))|apply IHr; [exact (Forall_inv_tail IH)|exact (Forall_inv_tail Hd)]].
Qed.
Print Assumptions C55_read.

(** The descriptor printed for a particle is read as the same particle: same daughters, orbital angular momentum, spin
    configuration, lineshape, vertex, attributes and flags; and it is printed for that particle too. *)
Theorem C55_roundtrip : forall w t, world_ok w -> tree_ok w t -> forall fuel, height t <= fuel ->
  exists a s a', build w fuel (text t) = Ok (Some a) /\ descriptor a = Ok s /\ build w fuel s = Ok (Some a') /\ same a a' /\ descriptor a' = Ok s.
Proof.
  intros w t W H fuel F. destruct (tree_print w t W H) as (t' & D & T & _ & Hh & S & D').
  exists (made w t), (text t'), (made w t'). split; [now apply build_text|]. split; [exact D|]. split; [apply build_text; [exact T|lia]|]. split; [exact S|exact D'].
Qed.
Print Assumptions C55_roundtrip.

Lemma a1_ok : tree_ok the_world a1.
Proof.
  assert (L : forall n, In n ["K-"; "pi+"; "pi-"]%string -> tree_ok the_world (leaf n)).
  { intros n I. assert (F : free_of punctuation (S_ n)) by (intros a Ha; cbn in I; repeat destruct I as [<- | I]; try tauto; cbn in Ha; repeat destruct Ha as [<- | Ha]; try tauto; cbn; intuition discriminate).
    constructor; [exact F|cbn in I; repeat destruct I as [<- | I]; try tauto; reflexivity|constructor|intros m m' []| |constructor]. cbn in I; repeat destruct I as [<- | I]; try tauto; cbn; lia. }
  assert (M : forall m, In m ["P"; "Inco"; "CP=-1"; "GSpline.EFF"; "D"; "GounarisSakurai"; "unused"]%string -> mod_ok the_shapes (S_ m) /\ ~ is_vertex (S_ m)).
  { intros m I. split; [|intros [v E]; cbn in I; repeat destruct I as [<- | I]; try tauto; vm_compute in E; discriminate].
    split; [cbn in I; repeat destruct I as [<- | I]; try tauto; discriminate|].
    split; [intros a Ha; cbn in I; repeat destruct I as [<- | I]; try tauto; cbn in Ha; repeat destruct Ha as [<- | Ha]; try tauto; cbn; intuition discriminate|].
    split; [intros a Ha; cbn in I; repeat destruct I as [<- | I]; try tauto; cbn in Ha; repeat destruct Ha as [<- | Ha]; try tauto; cbv; lia|].
    split; [unfold has; intro Ha; cbn in I; repeat destruct I as [<- | I]; try tauto; cbn in Ha; repeat destruct Ha as [Ha | Ha]; try tauto; discriminate|].
    intro Ha. cbn in I. repeat destruct I as [<- | I]; try tauto; try (exfalso; unfold has in Ha; cbn in Ha; repeat destruct Ha as [Ha | Ha]; tauto || discriminate). split; [cbn; lia|vm_compute; reflexivity]. }
  assert (B : forall n ms ds, In n ["D0"; "a(1)(1260)+"; "rho(770)0"]%string -> incl ms ["P"; "Inco"; "CP=-1"; "GSpline.EFF"; "D"; "GounarisSakurai"; "unused"]%string -> Forall (tree_ok the_world) ds -> tree_ok the_world (Tree (S_ n) (map S_ ms) ds)).
  { intros n ms ds I Im Fd. constructor; [intros a Ha; cbn in I; repeat destruct I as [<- | I]; try tauto; cbn in Ha; repeat destruct Ha as [<- | Ha]; try tauto; cbn; intuition discriminate
      |cbn in I; repeat destruct I as [<- | I]; try tauto; reflexivity| | | |exact Fd].
    - apply Forall_forall. intros x Hx. apply in_map_iff in Hx as (y & <- & Hy). now apply M, Im.
    - intros m m' Hm Hm' V. apply in_map_iff in Hm as (y & <- & Hy). exfalso. now apply (proj2 (M y (Im y Hy))).
    - cbn in I; repeat destruct I as [<- | I]; try tauto; cbn; lia. }
  apply (B "D0"%string ["P"; "Inco"; "CP=-1"]%string); [cbn; tauto|intros x Hx; cbn in *; tauto|]. apply Forall_cons; [apply L; cbn; tauto|]. apply Forall_cons; [|constructor].
  apply (B "a(1)(1260)+"%string ["GSpline.EFF"; "D"]%string); [cbn; tauto|intros x Hx; cbn in *; tauto|]. apply Forall_cons; [|apply Forall_cons; [apply L; cbn; tauto|constructor]].
  apply (B "rho(770)0"%string ["GounarisSakurai"; "unused"]%string); [cbn; tauto|intros x Hx; cbn in *; tauto|]. repeat (apply Forall_cons; [apply L; cbn; tauto|]). constructor.
Qed.
Example C55_roundtrip_example : tree_ok the_world a1 /\
  text a1 = S_ "D0[P;Inco;CP=-1]{K-,a(1)(1260)+[GSpline.EFF;D]{rho(770)0[GounarisSakurai;unused]{pi+,pi-},pi+}}" /\
  bind (build the_world 5 (text a1)) (fun o => match o with Some a => descriptor a | None => UB end) =
  Ok (S_ "D0[Inco;CP=-1]{K-,a(1)(1260)+[D;GSpline.EFF]{rho(770)0[GounarisSakurai]{pi+,pi-},pi+}}").
Proof. split; [exact a1_ok|]. split; [reflexivity|vm_compute; reflexivity]. Qed.

(** A descriptor with an odd number of braces gives no particle. *)
Theorem C55_odd : forall w fuel s, Nat.odd (count "{" s + count "}" s) = true -> build w (S fuel) s = Ok None.
Proof.
  intros w fuel s H. cbn [build]. rewrite (items_odd "{" "}" "," s); [reflexivity|]. etransitivity; [|exact H]. f_equal.
  clear H. generalize 0 at 1 as k. induction s as [|a s IH]; intro k; [reflexivity|]. cbn [braces]. rewrite app_length, IH, !count_cons.
  destruct (Ascii.eqb_spec a "{"%char) as [-> | N1]; [cbn; lia|]. destruct (Ascii.eqb a "}"%char); cbn; lia.
Qed.
Print Assumptions C55_odd.
Example C55_odd_example : build the_world 1 (S_ "D0{K-,pi+") = Ok None.
Proof. apply C55_odd. reflexivity. Qed.

(** A name is taken for a descriptor only if the braces balance in number, and there are some. *)
Theorem C55_balanced : forall known s, isValidDecayDescriptor known s = true ->
  count_occ ascii_dec s "{"%char = count_occ ascii_dec s "}"%char /\ count_occ ascii_dec s "{"%char > 0.
Proof.
  intros known s. unfold isValidDecayDescriptor. rewrite !count_is. destruct (Nat.eqb_spec (count_occ ascii_dec s "{"%char) 0) as [E | E]; [discriminate|].
  destruct (Nat.eqb_spec (count_occ ascii_dec s "{"%char) (count_occ ascii_dec s "}"%char)); [|discriminate]. intros _. split; [assumption|lia].
Qed.
Print Assumptions C55_balanced.

(** The text of a decay, as a parameter is named (with a prefix, and with "_Re" or "_Im"), is accepted exactly if all
    its particles are known. *)
Theorem C55_valid : forall known pre sfx t, plain_tree t -> daughters t <> [] -> prefix_ok pre t -> In sfx [[]; S_ "_Re"; S_ "_Im"] ->
  (isValidDecayDescriptor known (pre ++ text t ++ sfx) = true <-> forall n, In n (all_names t) -> known n = true).
Proof. intros known pre sfx t Pt Nd Pp Hs. rewrite (valid_text known pre sfx t Pt Nd Pp Hs). apply forallb_forall. Qed.
Print Assumptions C55_valid.
Example C55_valid_example : isValidDecayDescriptor (known the_world) (S_ "x_D0{K-,rho(770)0[GounarisSakurai]{pi+,pi-}}_Re") = true /\
  isValidDecayDescriptor (known the_world) (S_ "D0{K-,rho(770)0[GounarisSakurai]{pi+,x-}}") = false.
Proof. split; vm_compute; reflexivity. Qed.

(** Accepted as a descriptor though the braces do not match, only their numbers do: reading it dereferences the first of
    no matched braces (Utilities.cpp:167). *)
Theorem C55_valid_refuted : exists s, isValidDecayDescriptor (known the_world) s = true /\ forall fuel, build the_world (S fuel) s = UB.
Proof. exists (S_ "D0}{K-"). split; [vm_compute; reflexivity|]. intro fuel. reflexivity. Qed.
Print Assumptions C55_valid_refuted.

(** Text after the decay is ignored: a different particle tree is accepted and read as D0 to K- pi+. *)
Theorem C55_trailing_refuted : exists s t, isValidDecayDescriptor (known the_world) s = true /\ s <> text t /\
  build the_world 2 s = build the_world 2 (text t) /\ exists a, build the_world 2 s = Ok (Some a).
Proof.
  exists (S_ "D0{K-,pi+}{pi-}"), (Tree (S_ "D0") [] [leaf "K-"; leaf "pi+"]). split; [vm_compute; reflexivity|]. split; [discriminate|]. split; [vm_compute; reflexivity|].
  eexists. vm_compute. reflexivity.
Qed.
Print Assumptions C55_trailing_refuted.

(** An empty daughter passes the check, since empty tokens are skipped, and then has no properties. *)
Theorem C55_empty_refuted : exists s, isValidDecayDescriptor (known the_world) s = true /\ build the_world 2 s = UB.
Proof. exists (S_ "D0{K-,,pi+}"). split; vm_compute; reflexivity. Qed.
Print Assumptions C55_empty_refuted.

(** With a named vertex a given orbital angular momentum is not printed but replaced by the vertex name: the descriptor
    of D0[D;vertex=foo] is D0[foo;vertex=foo], which is read with the default orbital angular momentum. *)
Theorem C55_vertex_refuted : exists s a s' a', build the_world 2 s = Ok (Some a) /\ descriptor a = Ok s' /\ build the_world 2 s' = Ok (Some a') /\ ~ same a a'.
Proof.
  let s := constr:(S_ "D0[D;vertex=foo]{K-,pi+}") in
  let a := eval vm_compute in (match build the_world 2 s with Ok (Some x) => x | _ => Part [] (NState 0 0 0 [] false [] []) [] end) in
  let s' := eval vm_compute in (match descriptor a with Ok x => x | _ => [] end) in
  let a' := eval vm_compute in (match build the_world 2 s' with Ok (Some x) => x | _ => Part [] (NState 0 0 0 [] false [] []) [] end) in
  exists s, a, s', a'.
  split; [vm_compute; reflexivity|]. split; [vm_compute; reflexivity|]. split; [vm_compute; reflexivity|].
  intro H. inversion H as [? ? ? ? ? S _]; subst. destruct S as (O & _). vm_compute in O. discriminate.
Qed.
Print Assumptions C55_vertex_refuted.

(** An explicit S wave is not distinguished from no specification: where the least orbital angular momentum is 1, the
    modifiers [S] and [P] and none give the same orbital angular momentum. *)
Theorem C55_swave_refuted : exists n ds a b, build the_world 2 (text (Tree n [S_ "S"] ds)) = Ok (Some a) /\ build the_world 2 (text (Tree n [S_ "P"] ds)) = Ok (Some b) /\
  (let '(Part _ sa _) := a in let '(Part _ sb _) := b in orbital sa = 1%Z /\ orbital sb = 1%Z) /\ descriptor a = descriptor b.
Proof.
  exists (S_ "D0"), [leaf "K-"; leaf "pi+"]. do 2 eexists. split; [vm_compute; reflexivity|]. split; [vm_compute; reflexivity|]. split; [split; reflexivity|vm_compute; reflexivity].
Qed.
Print Assumptions C55_swave_refuted.

(** A spin configuration on a decay without any allowed orbital angular momentum (999, Particle.cpp:704-716) prints a
    letter from beyond the array of seven. *)
Theorem C55_orbital_refuted : exists w s a, build w 2 s = Ok (Some a) /\ descriptor a = UB.
Proof.
  exists (World the_shapes [] (fun _ => true) (fun _ => false) (fun _ => false) (fun _ => 999%Z)), (S_ "D0[1]{K-,pi+}"). eexists. split; vm_compute; reflexivity.
Qed.
Print Assumptions C55_orbital_refuted.

(** A modifier with a comma breaks the descriptor: the daughters become the parts between commas. *)
Theorem C55_comma_refuted : exists s, isValidDecayDescriptor (known the_world) s = false /\ getItems "{" "}" "," s = Ok [S_ "D0[x,y]"; S_ "K-,pi+}"; S_ "y]{K-"; S_ "pi+"].
Proof. exists (S_ "D0[x,y]{K-,pi+}"). split; vm_compute; reflexivity. Qed.
Print Assumptions C55_comma_refuted.
