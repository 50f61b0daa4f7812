From Verif.Common Require Import Prelude.
From Coq Require Import Reals Lra.
From Coquelicot Require Import Hierarchy Complex.
From Verif.Utilities Require Import Model.
From Verif.Descriptor Require Model Proofs.
From Verif.Propagators Require Import Model Spec Proofs.
Local Open Scope nat_scope.

(** The propagator of a decay is the product over all its particles of the value of the lineshape of each. *)
Theorem C107_product : forall m p c, propagator m p = Ok c <-> exists cs, Forall2 (contributes m) (particles p) cs /\ c = product cs.
Proof. exact propagator_ok. Qed.
Print Assumptions C107_product.

(** A lineshape is found by its name; what follows the first point is its modifier; those of two particles are functions of the mass and the masses of the first two. *)
Theorem C107_two_body : forall m k mod_ x f n y s L d e ds, written k mod_ x -> lookup m k = Some (TwoBody f) ->
  get m x (Particle n y s L (d :: e :: ds)) = f s (massSq d) (massSq e) n L mod_.
Proof. intros m k mod_ x f n y s L d e ds W H. destruct (written_parts _ _ _ W) as [B M]. unfold get. cbn [factory]. rewrite B, H, M. reflexivity. Qed.
Print Assumptions C107_two_body.

(** The shape for the eta is multiplied with the lineshape that its modifier names, which may have a modifier itself. *)
Theorem C107_eta : forall m z x p, modest m -> lookup m (S_ "EtaDalitz") = Some (EtaDalitz z) ->
  get m (S_ "EtaDalitz") p = z p /\
  (x <> [] -> get m (S_ "EtaDalitz." ++ x) p = bind (z p) (fun a => bind (get m x p) (fun b => Ok (a * b)%C))).
Proof.
  intros m z x p HM H. split.
  - unfold get. cbn [factory List.length]. change (base (S_ "EtaDalitz")) with (S_ "EtaDalitz"). rewrite H. change (modifier (S_ "EtaDalitz")) with (@nil ascii). cbn. destruct (z p); reflexivity.
  - intro N. assert (W : written (S_ "EtaDalitz") x (S_ "EtaDalitz." ++ x)) by (split; [cbn; intuition discriminate|right; reflexivity]). destruct (written_parts _ _ _ W) as [B M].
    unfold get at 1. cbn [factory]. rewrite B, H, M. unfold EtaDalitz. destruct (z p) as [a| | |]; cbn [bind]; try reflexivity. destruct x as [|c x]; [now contradiction N|].
    unfold get. rewrite (factory_fuel m HM _ (S (List.length (c :: x))) (c :: x) p) by (rewrite ?app_length; change (List.length (S_ "EtaDalitz.")) with 10; cbn [List.length]; lia). reflexivity.
Qed.
Print Assumptions C107_eta.

(** Whatever the modifiers in a decay descriptor are, and with any default modifier, the lineshape of the particle is one that is registered. *)
Theorem C107_descriptor : forall m ms extra narrow photon l, Forall (fun k => In k (map fst m)) [S_ "BW"; S_ "FormFactor"; S_ "Photon"] -> Forall (fun k => ~ In "."%char k) (map fst m) ->
  isLineshape m (Descriptor.Model.lineshape (Descriptor.Model.pdgLookup extra narrow photon l (Descriptor.Model.read_modifiers (map fst m) ms))) = true.
Proof.
  intros m ms extra narrow photon l F D. assert (K : forall k, In k [S_ "BW"; S_ "FormFactor"; S_ "Photon"] -> isLineshape m k = true).
  { intros k I. apply known. rewrite Forall_forall in F, D. pose proof (F k I) as I'. apply lookup_known. assert (W : written k [] k) by (split; [now apply D|left; split; reflexivity]).
    now rewrite (proj1 (written_parts _ _ _ W)). }
  assert (R : isLineshape m (Descriptor.Model.lineshape (Descriptor.Model.read_modifiers (map fst m) ms)) = true).
  { unfold Descriptor.Model.read_modifiers. match goal with |- isLineshape m (_ (fold_left _ ms ?s0)) = _ => assert (S : isLineshape m (Descriptor.Model.lineshape s0) = true) by (apply K; now left); revert S; generalize s0 end.
    induction ms as [|w ms IH]; intros st S; cbn [fold_left]; [exact S|]. apply IH. clear IH.
    assert (P : forall c st, isLineshape m (Descriptor.Model.lineshape st) = true -> isLineshape m (Descriptor.Model.lineshape (Descriptor.Model.parse_char c st)) = true).
    { intros c st' H. unfold Descriptor.Model.parse_char. destruct (find_char c _); exact H. }
    assert (P1 : forall c st, isLineshape m (Descriptor.Model.lineshape st) = true -> isLineshape m (Descriptor.Model.lineshape (Descriptor.Model.parse_one (map fst m) c st)) = true).
    { intros c st' H. unfold Descriptor.Model.parse_one. destruct (Descriptor.Model.isLineshape (map fst m) (c :: nil)) eqn:E; [exact E|now apply P]. }
    assert (O : isLineshape m (Descriptor.Model.lineshape (if Descriptor.Model.isLineshape (map fst m) w then Descriptor.Model.set_lineshape w st
       else match w with (c :: nil) => Descriptor.Model.parse_char c st | (c :: d :: nil) => Descriptor.Model.parse_one (map fst m) d (Descriptor.Model.parse_one (map fst m) c st) | _ => st end)) = true).
    { destruct (Descriptor.Model.isLineshape (map fst m) w) eqn:E; [exact E|]. destruct w as [|c [|d [|e w]]]; try exact S; [now apply P|now apply P1, P1]. }
    unfold Descriptor.Model.parseModifier. destruct (split w "=" true) as [|k [|v [|? ?]]]; try exact O. destruct (str_eqb k _); [exact S|exact O]. }
  set (st := Descriptor.Model.read_modifiers (map fst m) ms) in *. unfold Descriptor.Model.pdgLookup. cbn [Descriptor.Model.lineshape].
  set (x := if (str_eqb _ _ || _)%bool then _ else _). assert (X : isLineshape m x = true).
  { unfold x. destruct (str_eqb _ _ || _)%bool; [|exact R]. destruct photon; [apply K; cbn; tauto|]. destruct narrow; [apply K; cbn; tauto|exact R]. }
  clearbody x. destruct extra as [|c extra]; [exact X|]. destruct (find0 (S_ ".") x) as [n|] eqn:E; [exact X|].
  apply known in X. apply known. assert (N : ~ In "."%char x) by (apply (Descriptor.Proofs.find0_char "." x); exact E).
  assert (W : written x (c :: extra) (x ++ S_ "." ++ c :: extra)) by (split; [exact N|right; reflexivity]). assert (W0 : written x [] x) by (split; [exact N|left; split; reflexivity]).
  rewrite (proj1 (written_parts _ _ _ W)). now rewrite (proj1 (written_parts _ _ _ W0)) in X.
Qed.
Print Assumptions C107_descriptor.

(** If all lineshapes are registered and are functions with a value, and every decay is into two particles or more, or is passed over, there is a propagator. *)
Theorem C107_defined : forall m p, isLineshape m (S_ "SBW") = true -> (forall k f, lookup m k = Some (TwoBody f) -> forall s s1 s2 n L mod_, exists c, f s s1 s2 n L mod_ = Ok c) ->
  (forall k f, lookup m k <> Some (Generic f)) ->
  (forall q, In q (particles p) -> daughters q <> [] -> isLineshape m (shape q) = true /\ (2 <= List.length (daughters q) \/ part (S_ "BW") (shape q) \/ part (S_ "FormFactor") (shape q))) ->
  exists c, propagator m p = Ok c.
Proof.
  intros m p HS HT HG HP. enough (E : exists cs, Forall2 (contributes m) (particles p) cs) by (destruct E as [cs F]; exists (product cs); apply C107_product; exists cs; split; [exact F|reflexivity]).
  assert (G : forall x n y s L d e ds, isLineshape m x = true -> exists c, get m x (Particle n y s L (d :: e :: ds)) = Ok c).
  { intros x n y s L d e ds K. apply known in K as [[f|f] K]; [|now apply HG in K]. unfold get. cbn [factory]. rewrite K. exact (HT _ _ K _ _ _ _ _ _). }
  assert (O : forall q, In q (particles p) -> exists c, contributes m q c).
  { intros [n x s L ds] I. specialize (HP _ I). cbn [daughters shape] in HP. destruct ds as [|d [|e [|f ds]]].
    - exists (RtoC 1). left. split; [constructor|reflexivity].
    - destruct HP as [_ [H|H]]; [discriminate|cbn in H; lia|]. exists (RtoC 1). left. split; [constructor; exact H|reflexivity].
    - destruct HP as [K _]; [discriminate|]. destruct (G x n x s L d e nil K) as [c E]. exists c. right. exists x. split; [constructor|exact E].
    - destruct HP as [K _]; [discriminate|]. destruct (str_dec x (S_ "BW")) as [->|N].
      + destruct (G (S_ "SBW") n (S_ "BW") s L d e (f :: ds) HS) as [c E]. exists c. right. exists (S_ "SBW"). split; [constructor|exact E].
      + destruct (G x n x s L d e (f :: ds) K) as [c E]. exists c. right. exists x. split; [constructor; exact N|exact E]. }
  clear - O. induction (particles p) as [|q l IH]; [exists nil; constructor|]. destruct (O q (or_introl eq_refl)) as [c Hc]. destruct IH as [cs F]; [intros r Hr; apply O; now right|].
  exists (c :: cs). constructor; assumption.
Qed.
Print Assumptions C107_defined.

(** What is registered is found, the last one under its name, and other names as before. *)
Theorem C107_register : forall m k e k', lookup (Register k e m) k' = if str_dec k k' then Some e else lookup m k'.
Proof.
  intros m k e k'. unfold Register, lookup. cbn [find fst]. destruct (str_dec k k') as [->|N]; [rewrite str_eqb_refl; reflexivity|]. rewrite (proj2 (str_eqb_neq _ _) N). f_equal.
  induction m as [|[k0 e0] m IH]; [reflexivity|]. cbn [filter fst find]. destruct (str_eqb k0 k) eqn:B; cbn [negb find fst].
  - apply str_eqb_eq in B. subst k0. rewrite (proj2 (str_eqb_neq _ _) N). exact IH.
  - destruct (str_eqb k0 k'); [reflexivity|exact IH].
Qed.
Print Assumptions C107_register.

(** ** Examples: the lineshapes as numbers that tell what they depend on. *)
Local Open Scope R_scope.
Definition bw (s s1 s2 : R) (n : str) (L : nat) (mod_ : str) : res C := Ok (RtoC (s - s1 - s2)).
Definition sbw (s s1 s2 : R) (n : str) (L : nat) (mod_ : str) : res C := Ok (RtoC s).
Definition one_ (s s1 s2 : R) (n : str) (L : nat) (mod_ : str) : res C := Ok (RtoC 1).
Definition shapes : registry := [(S_ "BW", TwoBody bw); (S_ "SBW", TwoBody sbw); (S_ "FormFactor", TwoBody one_); (S_ "Photon", TwoBody one_); (S_ "LASS", TwoBody bw)].
Definition pion : particle := Particle (S_ "pi+") (S_ "FormFactor") 1 0 [].
Definition rho_ : particle := Particle (S_ "rho(770)0") (S_ "BW") 7 1 [pion; pion].
Definition a1 : particle := Particle (S_ "a(1)(1260)+") (S_ "BW") 20 0 [rho_; pion].
Example C107_product_ex : propagator shapes a1 = Ok (RtoC ((20 - 7 - 1) * (7 - 1 - 1))).
Proof.
  apply C107_product. exists [RtoC (20 - 7 - 1); RtoC (7 - 1 - 1); RtoC 1; RtoC 1; RtoC 1]. split.
  - constructor; [right; eexists; split; [constructor|reflexivity]|]. constructor; [right; eexists; split; [constructor|reflexivity]|].
    constructor; [left; split; [constructor|reflexivity]|]. constructor; [left; split; [constructor|reflexivity]|]. constructor; [left; split; [constructor|reflexivity]|]. constructor.
  - apply injective_projections; cbn; ring.
Qed.
Example C107_defined_ex : exists c, propagator shapes a1 = Ok c.
Proof.
  apply C107_defined; [reflexivity| | |].
  - intros k f H. unfold lookup, shapes in H. cbn [find fst option_map snd] in H.
    repeat match type of H with context [if ?b then _ else _] => destruct b; [injection H as <-; intros; eexists; reflexivity|] end. discriminate H.
  - intros k f H. unfold lookup, shapes in H. cbn [find fst option_map snd] in H.
    repeat match type of H with context [if ?b then _ else _] => destruct b; [discriminate H|] end. discriminate H.
  - intros q I D. cbn [particles a1 rho_ pion flat_map app In] in I.
    destruct I as [<-|[<-|[<-|[<-|[<-|[]]]]]]; try (exfalso; now apply D); (split; [reflexivity|left; cbn; lia]).
Qed.
Definition with_eta : registry := Register (S_ "EtaDalitz") (EtaDalitz (fun p => Ok (RtoC (massSq p)))) shapes.
Lemma with_eta_modest : modest with_eta.
Proof.
  intros k f H fac fac' p mod_ E. unfold with_eta in H. rewrite C107_register in H. destruct (str_dec (S_ "EtaDalitz") k) as [_|_].
  - injection H as <-. cbn. destruct mod_ as [|c r]; [reflexivity|]. rewrite E by discriminate. reflexivity.
  - exfalso. unfold lookup, shapes in H. cbn [find fst option_map snd] in H.
    repeat match type of H with context [if ?b then _ else _] => destruct b; [discriminate H|] end. discriminate H.
Qed.
Example C107_eta_ex : get with_eta (S_ "EtaDalitz.EtaDalitz.SBW") (Particle (S_ "eta") (S_ "EtaDalitz.EtaDalitz.SBW") 3 0 [pion; pion; pion]) = Ok (RtoC 27).
Proof.
  change (S_ "EtaDalitz.EtaDalitz.SBW") with (S_ "EtaDalitz." ++ S_ "EtaDalitz.SBW") at 1. rewrite (proj2 (C107_eta with_eta _ _ _ with_eta_modest eq_refl)) by discriminate.
  change (S_ "EtaDalitz.SBW") with (S_ "EtaDalitz." ++ S_ "SBW") at 1. rewrite (proj2 (C107_eta with_eta _ _ _ with_eta_modest eq_refl)) by discriminate.
  rewrite (C107_two_body with_eta (S_ "SBW") [] (S_ "SBW") sbw) by (first [reflexivity|split; [cbn; intuition discriminate|left; split; reflexivity]]).
  cbn [bind sbw massSq]. f_equal. apply injective_projections; cbn; ring.
Qed.
Example C107_descriptor_ex : Descriptor.Model.lineshape (Descriptor.Model.pdgLookup (S_ "BL") false false 1 (Descriptor.Model.read_modifiers (map fst shapes) [S_ "LASS"; S_ "D"])) = S_ "LASS.BL".
Proof. reflexivity. Qed.

(** With a default modifier, a decay into three particles is not given the Breit-Wigner of fixed width, but the one for two particles, with the masses of the first two of the three
    (src/Particle.cpp:208-210, 374). *)
Theorem C107_default_modifier_refuted : exists m p extra l, (let x := Descriptor.Model.lineshape (Descriptor.Model.pdgLookup [] false false l (Descriptor.Model.read_modifiers (map fst m) [])) in
    x = shape p /\ has_shape p (Some (S_ "SBW")) /\ propagator m p = Ok (RtoC 9)) /\
  (let x := Descriptor.Model.lineshape (Descriptor.Model.pdgLookup extra false false l (Descriptor.Model.read_modifiers (map fst m) [])) in
    exists n s L ds, p = Particle n (shape p) s L ds /\ propagator m (Particle n x s L ds) = Ok (RtoC 7)).
Proof.
  exists shapes, (Particle (S_ "omega(782)0") (S_ "BW") 9 1 [pion; pion; pion]), (S_ "BL"), 0%Z. cbv zeta. split; [split; [reflexivity|split; [constructor|]]|].
  - apply C107_product. exists [RtoC 9; RtoC 1; RtoC 1; RtoC 1]. split; [|apply injective_projections; cbn; ring].
    constructor; [right; exists (S_ "SBW"); split; [constructor|reflexivity]|]. repeat (constructor; [left; split; [constructor|reflexivity]|]). constructor.
  - exists (S_ "omega(782)0"), 9, 1%nat, [pion; pion; pion]. split; [reflexivity|]. apply C107_product. exists [RtoC (9 - 1 - 1); RtoC 1; RtoC 1; RtoC 1].
    split; [|apply injective_projections; cbn; ring].
    constructor; [right; eexists; split; [constructor; discriminate|reflexivity]|]. repeat (constructor; [left; split; [constructor|reflexivity]|]). constructor.
Qed.
Print Assumptions C107_default_modifier_refuted.

(** A modifier of EtaDalitz that is no lineshape: the text is accepted as a lineshape, and a null pointer is used (src/Lineshapes.cpp:103, 127-129; src/Lineshapes/EtaDalitz.cpp:29). *)
Theorem C107_unknown_refuted : exists m x p, isLineshape m x = true /\ Descriptor.Model.lineshape (Descriptor.Model.read_modifiers (map fst m) (x :: nil)) = x /\ shape p = x /\ propagator m p = UB.
Proof. exists with_eta, (S_ "EtaDalitz.gauss"), (Particle (S_ "eta") (S_ "EtaDalitz.gauss") 3 0 [pion; pion; pion]). repeat split; reflexivity. Qed.
Print Assumptions C107_unknown_refuted.

(** A decay to a single particle, with a lineshape of another name than a Breit-Wigner: the second daughter is used, which does not exist (src/Particle.cpp:375-378,
    AmpGen/Lineshapes.h:64). *)
Theorem C107_single_refuted : exists m p, isLineshape m (shape p) = true /\ List.length (daughters p) = 1%nat /\ propagator m p = UB.
Proof. exists shapes, (Particle (S_ "K(0)*(1430)0") (S_ "LASS") 3 0 (rho_ :: nil)). repeat split; reflexivity. Qed.
Print Assumptions C107_single_refuted.

Example C107_register_ex : lookup (Register (S_ "BW") (TwoBody one_) shapes) (S_ "BW") = Some (TwoBody one_) /\ lookup (Register (S_ "BW") (TwoBody one_) shapes) (S_ "SBW") = Some (TwoBody sbw).
Proof. split; reflexivity. Qed.
Example C107_two_body_ex : get shapes (S_ "LASS.BL") a1 = Ok (RtoC (20 - 7 - 1)).
Proof. apply (C107_two_body shapes (S_ "LASS") (S_ "BL") (S_ "LASS.BL") bw (S_ "a(1)(1260)+") (S_ "BW") 20 0 rho_ pion nil); [split; [cbn; intuition discriminate|right; reflexivity]|reflexivity]. Qed.
