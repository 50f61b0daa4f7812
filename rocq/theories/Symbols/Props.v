From Verif.Descriptor Require Import Spec.
From Verif.Symbols Require Import Model Spec Proofs.

(** Any name that is not empty gives something of the form of an identifier. *)
Theorem C58_identifier : forall s, s <> [] -> identifier (programatic_name s).
Proof. exact pn_identifier. Qed.
Print Assumptions C58_identifier.
Example C58_identifier_example : programatic_name (S_ "D0{K*(892)bar0{K-,pi+},3pi'}") = S_ "D0_Ks_892_bar0_Km_pip__3pi__" /\ programatic_name (S_ "0.5*x") = S_ "f0_5sx".
Proof. split; reflexivity. Qed.

(** A symbol is its own symbol. *)
Theorem C58_idempotent : forall s, programatic_name (programatic_name s) = programatic_name s.
Proof. exact pn_idem. Qed.
Print Assumptions C58_idempotent.
Example C58_idempotent_example : programatic_name (S_ "2pi+") = S_ "f2pip" /\ programatic_name (S_ "f2pip") = S_ "f2pip".
Proof. split; reflexivity. Qed.

(** Different decays have different symbols, and different pairs of decays have different interference terms: for names and
    modifiers that can be told apart by their symbols, and particles of which it is known whether they decay. *)
Theorem C58_distinct : forall name modifier decaying,
  words_ok (fun u => name u \/ modifier u) -> (forall u, name u -> modifier u -> False) ->
  (forall a b, made_of name modifier decaying a -> made_of name modifier decaying b -> programatic_name (text a) = programatic_name (text b) -> a = b) /\
  (forall a b a' b', made_of name modifier decaying a -> made_of name modifier decaying b -> made_of name modifier decaying a' -> made_of name modifier decaying b' ->
    interference (text a) (text b) = interference (text a') (text b') -> a = a' /\ b = b').
Proof. intros name modifier decaying W D. split; [exact (distinct name modifier decaying W D)|exact (distinct_pairs name modifier decaying W D)]. Qed.
Print Assumptions C58_distinct.

(** *** Words of a usual model *)
Definition the_names : list str := map S_ ["D0"; "K-"; "K+"; "pi+"; "pi-"; "pi0"; "rho(770)0"; "rho(1450)0"; "a(1)(1260)+"; "K*(892)0"; "K*(892)bar0"; "K(1)(1270)bar-"; "omega(782)0"]%string.
Definition the_modifiers : list str := map S_ ["P"; "S"; "GSpline.EFF"; "GounarisSakurai"; "BgSpin0"]%string.
Definition decays (n : str) : bool := negb (existsb (str_eqb n) (map S_ ["K-"; "K+"; "pi+"; "pi-"; "pi0"]%string)).
Fixpoint begins (p s : str) : bool := match p, s with [], _ => true | a :: p, b :: s => Ascii.eqb a b && begins p s | _, _ => false end.
Lemma begins_spec p s : starts_with p s -> begins p s = true.
Proof. intros (r & ->). induction p as [|a p IH]; [reflexivity|]. cbn. now rewrite Ascii.eqb_refl, IH. Qed.
Lemma the_words_ok : words_ok (fun u => In u the_names \/ In u the_modifiers).
Proof.
  set (l := the_names ++ the_modifiers). assert (I : forall u, In u the_names \/ In u the_modifiers -> In u l) by (intros u H; now apply in_or_app). split.
  - intros u H. apply I in H. assert (B : forallb (fun u => match u with c :: _ => mem c letters && negb (Ascii.eqb c "_") | [] => false end) l = true) by (vm_compute; reflexivity).
    rewrite forallb_forall in B. specialize (B u H). destruct u as [|c r]; [discriminate|]. apply andb_prop in B as [B1 B2]. exists c, r. split; [reflexivity|]. split; [now apply mem_in|]. intros ->. discriminate.
  - intros u v Hu Hv St. apply begins_spec in St. apply I in Hu, Hv.
    assert (B : forallb (fun u => forallb (fun v => str_eqb u v || negb (begins (programatic_name u ++ S_ "_") (programatic_name v ++ S_ "_"))) l) l = true) by (vm_compute; reflexivity).
    rewrite forallb_forall in B. specialize (B u Hu). rewrite forallb_forall in B. specialize (B v Hv). rewrite St in B. rewrite orb_false_r in B. now apply str_eqb_eq.
Qed.
Definition leaf n := Tree (S_ n) [] [].
Definition t1 := Tree (S_ "D0") [S_ "P"] [leaf "K-"; Tree (S_ "a(1)(1260)+") [] [Tree (S_ "rho(770)0") [S_ "GounarisSakurai"] [leaf "pi+"; leaf "pi-"]; leaf "pi+"]].
Example C58_distinct_example : words_ok (fun u => In u the_names \/ In u the_modifiers) /\ (forall u, In u the_names -> In u the_modifiers -> False) /\
  made_of (fun u => In u the_names) (fun u => In u the_modifiers) decays t1 /\
  programatic_name (text t1) = S_ "D0_P__Km_a_1__1260_p_rho_770_0_GounarisSakurai__pip_pim__pip__".
Proof.
  split; [exact the_words_ok|]. split.
  - intros u H K. assert (B : forallb (fun u => negb (existsb (str_eqb u) the_modifiers)) the_names = true) by (vm_compute; reflexivity). rewrite forallb_forall in B. specialize (B u H).
    rewrite negb_true_iff in B. rewrite <- not_true_iff_false in B. apply B. apply existsb_exists. exists u. split; [exact K|apply str_eqb_refl].
  - split; [|reflexivity]. repeat first [split; first [reflexivity|discriminate] | apply Forall_nil | apply Forall_cons | apply mo | vm_compute; tauto].
Qed.

(** A name that is a word of the language stays one, which the compiler does not take for a function name. *)
Theorem C58_keyword_refuted : exists s, s <> [] /\ In (programatic_name s) keywords.
Proof. exists (S_ "double"). split; [discriminate|now left]. Qed.
Print Assumptions C58_keyword_refuted.
(** The symbol of an expression without a name is empty. *)
Theorem C58_empty_refuted : exists s, ~ identifier (programatic_name s).
Proof. exists []. intros (c & r & E & _). discriminate. Qed.
Print Assumptions C58_empty_refuted.

(** All punctuation becomes the same character: a decay to three bodies inside one to two, and a decay to two bodies inside
    one to three, have the same symbol when the same names come in the same order. *)
Theorem C58_distinct_refuted : exists a b, a <> b /\ a = Tree (S_ "B0") [] [Tree (S_ "D0") [] [leaf "K*(892)bar0"; leaf "pi+"; leaf "pi-"]; leaf "pi0"] /\
  b = Tree (S_ "B0") [] [leaf "D0"; Tree (S_ "K*(892)bar0") [] [leaf "pi+"; leaf "pi-"]; leaf "pi0"] /\ programatic_name (text a) = programatic_name (text b).
Proof. do 2 eexists. split; [|split; [reflexivity|split; [reflexivity|vm_compute; reflexivity]]]. discriminate. Qed.
Print Assumptions C58_distinct_refuted.

(** A sign and the letter it becomes are the same: the expressions K+ and Kp share a symbol. *)
Theorem C58_sign_refuted : exists a b, a <> b /\ ~ In "_"%char (programatic_name a) /\ programatic_name a = programatic_name b.
Proof. exists (S_ "K+"), (S_ "Kp"). split; [discriminate|]. split; [|reflexivity]. vm_compute. intuition discriminate. Qed.
Print Assumptions C58_sign_refuted.

(** The function that gives the name of an expression x is called x_name: an expression of that name collides with it. *)
Theorem C58_companion_refuted : exists a b x, programatic_name a <> programatic_name b /\ In x (symbols a) /\ In x (symbols b).
Proof. exists (S_ "pdf"), (S_ "pdf_name"), (S_ "pdf_name"). split; [discriminate|]. split; [now left|now right; left]. Qed.
Print Assumptions C58_companion_refuted.
