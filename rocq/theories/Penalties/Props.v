From Coq Require Import Reals Lra.
From Verif.Common Require Import Prelude.
From Verif.Coherent Require Import Model Real.
From Verif.Fit Require Import Model.
From Verif.Utilities Require Import Model Spec Proofs.
From Verif.Penalties Require Import Model Spec Proofs.
Local Open Scope nat_scope.
Lemma words_split ws : Forall word ws -> split (join " " ws) " " true = ws.
Proof. apply split_join. Qed.

(** Four words: the parameter with that name is constrained to the given mean and width; the term is zero at the mean and negative elsewhere. *)
Theorem C109_gaussian : forall stod pdg params w p x y m s k, Forall word [w; p; x; y] -> stod x = Some m -> stod y = Some s -> first p params k ->
  configure_gaussian stod pdg params (join " " [w; p; x; y]) = Ok (Set_ (Gaussian k m s)) /\
  forall coefs norms v a, nth_error v k = Some a -> value coefs norms v (Set_ (Gaussian k m s)) = Ok (- ((a - m) * (a - m)) / (2 * s * s))%R.
Proof.
  intros stod pdg params w p x y m s k W X Y P. split.
  - unfold configure_gaussian. rewrite (words_split _ W). cbn [token nth_error of_opt bind gaussian_values]. unfold number. rewrite X, Y. cbn [bind].
    rewrite (proj2 (position_first p params k) P). reflexivity.
  - intros coefs norms v a A. cbn [value extend]. rewrite A. cbn [of_opt bind]. f_equal. unfold Rdiv. ring.
Qed.
Print Assumptions C109_gaussian.

(** With PDG, mean and width are mass or width of the particle in the table and its error. *)
Theorem C109_pdg : forall stod pdg params w particle what q k, Forall word [w; join "_" [particle; what]; S_ "PDG"] -> Forall name_ [particle; what] ->
  pdg particle = Some q -> first (join "_" [particle; what]) params k ->
  (what = S_ "mass" -> configure_gaussian stod pdg params (join " " [w; join "_" [particle; what]; S_ "PDG"]) = Ok (Set_ (Gaussian k (mass q) (mErrPlus q)))) /\
  (what = S_ "width" -> configure_gaussian stod pdg params (join " " [w; join "_" [particle; what]; S_ "PDG"]) = Ok (Set_ (Gaussian k (width_ q) (wErrPlus q)))).
Proof.
  intros stod pdg params w particle what q k W N Q P. unfold configure_gaussian. rewrite (words_split _ W). set (n := join "_" [particle; what]) in *.
  assert (E : split n "_" true = [particle; what]) by (apply split_join; exact N). apply (proj2 (position_first n params k)) in P.
  cbn [token nth_error of_opt bind gaussian_values]. rewrite str_eqb_refl, E. cbn [token nth_error of_opt bind]. rewrite Q, P.
  split; intros ->; reflexivity.
Qed.
Print Assumptions C109_pdg.

(** The place of a decay in an amplitude is the first with this descriptor; the places of a text are all whose descriptor contains it. *)
Theorem C109_find : forall l d, (In d l -> first d l (findIndex l d)) /\ (forall i, In i (findIndices l d) <-> exists x, nth_error l i = Some x /\ part d x).
Proof.
  intros l d. split.
  - intro I. unfold findIndex. destruct (position_in d l I) as [i E]. rewrite E. now apply position_first.
  - intro i. unfold findIndices. rewrite indices_from, Nat.sub_0_r. split; [intros [_ E]; exact E|intro E; split; [lia|exact E]].
Qed.
Print Assumptions C109_find.

(** A constraint on widths is that of the decays that its options name. *)
Theorem C109_width : forall stod options elements w n x y weight ratio, Forall word [w; n; x; y] -> stod x = Some weight -> stod y = Some ratio ->
  incl (options (n ++ S_ "_numChannels")) elements -> incl (options (n ++ S_ "_denChannels")) elements ->
  exists num den, configure_width stod options (Some elements) (join " " [w; n; x; y]) = Ok (Set_ (PartialWidth num den weight ratio)) /\
    Forall2 (fun d i => first d elements i) (options (n ++ S_ "_numChannels")) num /\ Forall2 (fun d i => first d elements i) (options (n ++ S_ "_denChannels")) den.
Proof.
  intros stod options elements w n x y weight ratio W X Y IN ID. do 2 eexists. split.
  - unfold configure_width. rewrite (words_split _ W). cbn [token nth_error of_opt bind]. unfold number. rewrite X, Y. cbn [bind]. reflexivity.
  - assert (F : forall l, incl l elements -> Forall2 (fun d i => first d elements i) l (map (findIndex elements) l)).
    { induction l as [|d l IH]; intro I; [constructor|]. cbn [map]. constructor; [apply C109_find; apply I; now left|apply IH; intros z Z; apply I; now right]. }
    split; now apply F.
Qed.
Print Assumptions C109_width.

(** What comes after the second word does not count for LASSO; its weight is the second. *)
Theorem C109_lasso : forall stod elements w x r lambda, Forall word (w :: x :: r) -> stod x = Some lambda -> configure_lasso stod (Some elements) (join " " (w :: x :: r)) = Ok (Set_ (Lasso lambda)).
Proof. intros stod elements w x r lambda W X. unfold configure_lasso. rewrite (words_split _ W). cbn [token nth_error of_opt bind]. unfold number. rewrite X. reflexivity. Qed.
Print Assumptions C109_lasso.

(** A parameter that does not exist: always undefined, whatever the words are, if the numbers are numbers. *)
Theorem C109_parameter : forall stod pdg params w p x y, Forall word [w; p; x; y] -> stod x <> None -> stod y <> None -> ~ In p params ->
  configure_gaussian stod pdg params (join " " [w; p; x; y]) = UB.
Proof.
  intros stod pdg params w p x y W X Y N. unfold configure_gaussian. rewrite (words_split _ W). cbn [token nth_error of_opt bind gaussian_values]. unfold number.
  destruct (stod x); [|now contradiction X]. destruct (stod y); [|now contradiction Y]. cbn [bind]. apply position_none in N. now rewrite N.
Qed.
Print Assumptions C109_parameter.

(** A decay that the amplitude does not have: the constraint can never be evaluated, if there are less than a thousand decays. *)
Theorem C109_missing : forall stod options elements w n x y weight ratio d r, Forall word [w; n; x; y] -> stod x = Some weight -> stod y = Some ratio ->
  options (n ++ S_ "_numChannels") = d :: r -> ~ In d elements ->
  exists t, configure_width stod options (Some elements) (join " " [w; n; x; y]) = Ok t /\ forall coefs norms v, List.length (coefs v) <= 999 -> value coefs norms v t = UB.
Proof.
  intros stod options elements w n x y weight ratio d r W X Y O N. eexists. split.
  - unfold configure_width. rewrite (words_split _ W). cbn [token nth_error of_opt bind]. unfold number. rewrite X, Y, O. cbn [bind map]. reflexivity.
  - intros coefs norms v L. cbn [value extend]. unfold findIndex at 1. apply position_none in N. rewrite N. generalize (map (findIndex elements) r) as is. intro is.
    unfold width, double_sum. cbn [sum_over]. unfold width_term at 1. rewrite (proj2 (nth_error_None (coefs v) 999) L). reflexivity.
Qed.
Print Assumptions C109_missing.

(** ** Examples *)
Definition stod_ (x : str) : option R := if str_eqb x (S_ "0.77526") then Some (77526 / 100000)%R else if str_eqb x (S_ "0.0003") then Some (3 / 10000)%R else if str_eqb x (S_ "2") then Some 2%R else None.
Definition rho_mass : str := S_ "rho(770)0_mass".
Definition table (x : str) : option properties := if str_eqb x (S_ "rho(770)0") then Some (Properties (77526 / 100000) (25 / 100000) (1478 / 10000) (9 / 10000)) else None.
Ltac words := repeat match goal with |- Forall _ (_ :: _) => constructor | |- Forall _ nil => constructor end; split; (let H := fresh in intro H; unfold blank in H; cbn in H; repeat match type of H with _ \/ _ => destruct H as [H|H] end; first [discriminate H|contradiction H]).
Example C109_gaussian_ex : configure_gaussian stod_ table [S_ "a"; rho_mass] (S_ "GaussianConstraint rho(770)0_mass 0.77526 0.0003") = Ok (Set_ (Gaussian 1 (77526 / 100000) (3 / 10000))).
Proof.
  refine (proj1 (C109_gaussian stod_ table [S_ "a"; rho_mass] (S_ "GaussianConstraint") rho_mass (S_ "0.77526") (S_ "0.0003") _ _ 1 _ eq_refl eq_refl _)); [words|].
  split; [reflexivity|]. intros [|j] L; [discriminate|lia].
Qed.
Example C109_pdg_ex : configure_gaussian stod_ table [S_ "a"; rho_mass] (S_ "GaussianConstraint rho(770)0_mass PDG") = Ok (Set_ (Gaussian 1 (77526 / 100000) (25 / 100000))).
Proof.
  refine (proj1 (C109_pdg stod_ table [S_ "a"; rho_mass] (S_ "GaussianConstraint") (S_ "rho(770)0") (S_ "mass") _ 1 _ _ eq_refl _) eq_refl); [words|words|].
  split; [reflexivity|]. intros [|j] L; [discriminate|lia].
Qed.
Definition decays : list str := [S_ "D0{K-,pi+}"; S_ "D0{K*(892)bar0{K-,pi+},pi0}"].
Definition channels (x : str) : list str := if str_eqb x (S_ "BR_numChannels") then [S_ "D0{K*(892)bar0{K-,pi+},pi0}"] else if str_eqb x (S_ "BR_denChannels") then decays else [].
Example C109_width_ex : configure_width stod_ channels (Some decays) (S_ "PartialWidthConstraint BR 2 0.77526") = Ok (Set_ (PartialWidth [1] [0; 1] 2 (77526 / 100000))).
Proof. reflexivity. Qed.
Example C109_find_ex : findIndices decays (S_ "K-,pi+") = [0; 1] /\ findIndex decays (S_ "D0{K+,K-}") = 999.
Proof. split; reflexivity. Qed.
Example C109_missing_ex : exists t, configure_width stod_ channels (Some [S_ "D0{K-,pi+}"]) (join " " [S_ "PartialWidthConstraint"; S_ "BR"; S_ "2"; S_ "0.77526"]) = Ok t /\
  forall coefs norms v, List.length (coefs v) <= 999 -> value coefs norms v t = UB.
Proof. eapply C109_missing; [words|reflexivity|reflexivity|reflexivity|]. intros [H|[]]. discriminate H. Qed.

(** A text with another number of words, or another word than PDG, is accepted, and mean and width are not initialised (src/ExtendLikelihoodBase.cpp:25-43). *)
Theorem C109_words_refuted : exists text, configure_gaussian stod_ table [rho_mass] text = Ok Unset /\ forall coefs norms v, value coefs norms v Unset = UB.
Proof. exists (S_ "GaussianConstraint rho(770)0_mass 0.77526"). split; [reflexivity|]. intros. reflexivity. Qed.
Print Assumptions C109_words_refuted.

(** The terms with an amplitude cannot be made by name, as the factory gives them none: one throws when it is configured, the other uses a null pointer
    (AmpGen/ExtendLikelihoodBase.h:43, 60; AmpGen/Factory.h:39). *)
Theorem C109_factory_refuted : exists l w, made stod_ table [rho_mass] channels (S_ "LASSO") l = Some (Ok Unset) /\ configure_lasso stod_ (Some decays) l = Ok (Set_ (Lasso 2)) /\
  made stod_ table [rho_mass] channels (S_ "PartialWidthConstraint") w = Some Throw /\ configure_width stod_ channels (Some decays) w = Ok (Set_ (PartialWidth [1] [0; 1] 2 (77526 / 100000))).
Proof. exists (S_ "LASSO 2"), (S_ "PartialWidthConstraint BR 2 0.77526"). repeat split; reflexivity. Qed.
Print Assumptions C109_factory_refuted.

(** Names with two underscores: PDG takes the part before the first, so that the width of a parameter of a decay can be taken for that of the particle. *)
Theorem C109_pdg_name_refuted : exists p, p <> rho_mass /\ configure_gaussian stod_ table [p] (join " " [S_ "GaussianConstraint"; p; S_ "PDG"]) = Ok (Set_ (Gaussian 0 (77526 / 100000) (25 / 100000))).
Proof. exists (S_ "rho(770)0_mass_shift"). split; [discriminate|reflexivity]. Qed.
Print Assumptions C109_pdg_name_refuted.
