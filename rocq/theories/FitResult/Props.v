From Verif.Common Require Import Prelude.
From Verif.Minuit Require Import Model Spec Proofs.
From Verif.FitResult Require Import Model Spec Proofs.

(** Integers as numbers, written in unary with a sign, for the examples. *)
Definition prZ (z : Z) : str := (if Z.ltb z 0 then "-"%char else "+"%char) :: repeat "1"%char (Z.abs_nat z).
Definition rdZ (s : str) : option Z :=
  match s with
  | c :: t => Some (if Ascii.eqb c "-" then - Z.of_nat (List.length t) else Z.of_nat (List.length t))%Z
  | [] => None
  end.
Definition isZ0 (z : Z) : bool := Z.eqb z 0.
Lemma rd_pr z : rdZ (prZ z) = Some z.
Proof.
  unfold rdZ, prZ. rewrite repeat_length. f_equal. destruct (Z.ltb_spec z 0); simpl Ascii.eqb; cbv iota; lia.
Qed.
Lemma isZ0_spec z : isZ0 z = true <-> z = 0%Z.
Proof. apply Z.eqb_eq. Qed.
Definition parZ (n : string) (f m lo hi : Z) : param Z := mkParam Z 0%Z (-9999)%Z (S_ n) f m 1%Z lo hi.

(** ** C17 *)
(** The full claim is about every text the fit produces. It holds for the result file, for the table printed after a fit
    when the offsets carry a flag that is not printed (the recommended expressions do), for minos and for the printing
    of a single parameter. *)
Theorem C17_file_partial : forall D add isZero pr (zero : D), (forall d, isZero d = true <-> d = zero) ->
  forall ps ps' c q fr ob, indistinguishable D add zero (fun q => contains (S_ "_blind") (name D q)) ps ps' ->
  writeToFile D add isZero pr zero {| params := ps; cov := c; quality := q; fractions := fr; observables := ob |} =
  writeToFile D add isZero pr zero {| params := ps'; cov := c; quality := q; fractions := fr; observables := ob |}.
Proof. exact writeToFile_twin. Qed.
Print Assumptions C17_file_partial.
Theorem C17_table_partial : forall D add isZero pr (zero : D), (forall d, isZero d = true <-> d = zero) ->
  forall minos ps ps', indistinguishable D add zero (fun p => flag D p <> 0 /\ flag D p <> 2 /\ flag D p <> 4)%Z ps ps' ->
  fit_table D add isZero pr zero minos ps ps = fit_table D add isZero pr zero minos ps' ps'.
Proof. exact (fun D add isZero pr zero H minos ps ps' I => fit_table_twin D add isZero pr zero H minos ps ps' ps ps' I I). Qed.
Print Assumptions C17_table_partial.
Theorem C17_minos_partial : forall D add isZero pr (zero : D), (forall d, isZero d = true <-> d = zero) ->
  forall secret ps ps' p p', indistinguishable D add zero secret ps ps' -> twin D add zero secret ps ps' p p' -> ~ secret p ->
  minos_line D add pr ps p = minos_line D add pr ps' p'.
Proof. exact (fun D add isZero pr zero H => minos_twin D add isZero pr (fun _ => None) zero H). Qed.
Print Assumptions C17_minos_partial.
Theorem C17_print_partial : forall D isZero pr p p', flag D p = 4%Z -> same_but_mean D p p' ->
  print_one D isZero pr p = print_one D isZero pr p'.
Proof. exact print_one_blind. Qed.
Print Assumptions C17_print_partial.
Definition blinded (f m o : Z) : list (param Z) :=
  [mkParam Z 0%Z (-9999)%Z (S_ "x") 4 m 1%Z 0%Z 0%Z; mkParam Z 0%Z (-9999)%Z (S_ "x_blind") f o 1%Z 0%Z 0%Z; parZ "y" 0 3 0 0].
(** The values 5+2 and 4+3 of a blinded parameter and its offset, with everything else the same. *)
Definition set_mean (v : Z) (p : param Z) : param Z := setCurrentFitVal Z v p.
Definition blinded' (f m o : Z) : list (param Z) :=
  match blinded f 5 2 with p :: q :: t => set_mean m p :: set_mean o q :: t | l => l end.
Lemma blinded_twins (secret : param Z -> Prop) f : secret (parZ "x_blind" f 2 0 0) \/ False ->
  indistinguishable Z Z.add 0%Z secret (blinded f 5 2) (blinded' f 4 3).
Proof.
  intro Hs. unfold indistinguishable.
  apply Forall2_cons; [|apply Forall2_cons; [|apply Forall2_cons; [|apply Forall2_nil]]]; (split; [repeat split|]).
  - right. left. split; [reflexivity|]. intros q q' Hq Hq' En En'.
    destruct Hq as [<-|[<-|[<-|[]]]]; try discriminate. destruct Hq' as [<-|[<-|[<-|[]]]]; try discriminate.
    split; [discriminate|]. split; [discriminate|]. reflexivity.
  - left. destruct Hs as [Hs|[]]. exact Hs.
  - right. right. split; [discriminate|reflexivity].
Qed.
Example C17_example : indistinguishable Z Z.add 0%Z (fun q => contains (S_ "_blind") (name Z q)) (blinded 1 5 2) (blinded' 1 4 3) /\
  fit_table Z Z.add isZ0 prZ 0%Z false (blinded 1 5 2) (blinded 1 5 2) =
    Ok [[S_ "x"; S_ "Blind"; S_ "+1111111"; S_ "+"]; [S_ "y"; S_ "Free"; S_ "+111"; S_ "+1"]] /\
  fit_table Z Z.add isZ0 prZ 0%Z false (blinded' 1 4 3) (blinded' 1 4 3) =
    Ok [[S_ "x"; S_ "Blind"; S_ "+1111111"; S_ "+"]; [S_ "y"; S_ "Free"; S_ "+111"; S_ "+1"]].
Proof.
  split; [|vm_compute; auto]. apply blinded_twins. left. exists (S_ "x"), []. reflexivity.
Qed.
(** The options file written after a fit contains the true value of a blinded parameter. *)
Theorem C17_options_refuted : exists ps ps', indistinguishable Z Z.add 0%Z (fun q => contains (S_ "_blind") (name Z q)) ps ps' /\
  (exists l l', writeOptions Z isZ0 prZ 9 ps = Ok l /\ writeOptions Z isZ0 prZ 9 ps' = Ok l' /\
    hd [] l = [S_ "x"; S_ "Blind"; prZ 5; prZ 1] /\ hd [] l' = [S_ "x"; S_ "Blind"; prZ 4; prZ 1]).
Proof.
  exists (blinded 1 5 2), (blinded' 1 4 3). split; [apply C17_example|]. eexists. eexists. vm_compute. auto.
Qed.
(** With an offset declared as a fixed parameter, the table after a fit prints the offset. *)
Theorem C17_fixed_offset_refuted : exists ps ps', indistinguishable Z Z.add 0%Z (fun q => contains (S_ "_blind") (name Z q)) ps ps' /\
  fit_table Z Z.add isZ0 prZ 0%Z false ps ps <> fit_table Z Z.add isZ0 prZ 0%Z false ps' ps'.
Proof.
  exists (blinded 2 5 2), (blinded' 2 4 3). split; [apply blinded_twins; left; exists (S_ "x"), []; reflexivity|]. vm_compute. discriminate.
Qed.
(** A blinded parameter without an offset dereferences a null pointer. *)
Theorem C17_no_offset_refuted : exists p : param Z, flag Z p = 4%Z /\ minos_line Z Z.add prZ [p] p = UB /\
  fit_table Z Z.add isZ0 prZ 0%Z false [p] [p] = UB.
Proof. exists (parZ "x" 4 1 0 0). repeat split. Qed.

(** ** C18 *)
(** No result with a parameter that is neither blinded nor an offset can be read back: the reader takes a seventh number
    of the six it has just read. *)
Theorem C18_read_refuted : forall D add isZero pr rd (zero m9999 : D) r file, (forall d, rd (pr d) <> None) ->
  writeToFile D add isZero pr zero r = Ok file ->
  (exists p, In p (firstn (List.length (cov D r)) (params D r)) /\ ~ contains (S_ "_blind") (name D p) /\ flag D p <> 4%Z) ->
  readFile D rd zero m9999 file = UB.
Proof. exact read_UB. Qed.
Print Assumptions C18_read_refuted.
(** Everything but the parameters and the covariance survives. *)
Theorem C18_no_parameters_partial : forall D add isZero pr rd (zero m9999 : D) q fr ob, (forall d, rd (pr d) = Some d) -> NoDup (map fst ob) ->
  let r := {| params := []; cov := []; quality := q; fractions := fr; observables := ob |} in
  bind (writeToFile D add isZero pr zero r) (readFile D rd zero m9999) = Ok r.
Proof. exact read_no_params. Qed.
Print Assumptions C18_no_parameters_partial.
Definition fit1 : result Z := {| params := [parZ "y" 0 3 0 0]; cov := [[1%Z]]; quality := (1, 2, 1, 3, 0)%Z; fractions := [(S_ "f", 1, 0)%Z]; observables := [(S_ "o", 7%Z)] |}.
Example C18_example : (forall d, rdZ (prZ d) = Some d) /\ (exists file, writeToFile Z Z.add isZ0 prZ 0%Z fit1 = Ok file) /\
  In (parZ "y" 0 3 0 0) (firstn (List.length (cov Z fit1)) (params Z fit1)) /\ ~ contains (S_ "_blind") (S_ "y").
Proof.
  split; [exact rd_pr|]. split; [eexists; reflexivity|]. split; [now left|].
  intro H. apply has_spec in H. discriminate.
Qed.

(** ** C63 *)
(** The full claim is for every parameter set. Proved for real parameters whose limits are both zero or both non-zero. *)
Theorem C63_options_partial : forall D isZero pr rd (zero m9999 : D), (forall d, isZero d = true <-> d = zero) ->
  forall fuel ps, (forall d, rd (pr d) = Some d) -> NoDup (map (name D) ps) ->
  Forall (fun p => (~ contains (S_ "_Re") (name D p) /\ ~ contains (S_ "_Im") (name D p)) /\ (0 <= flag D p <= 4)%Z /\
    (minInit D p = zero /\ maxInit D p = zero \/ minInit D p <> zero /\ maxInit D p <> zero)) ps ->
  exists lines s qs, writeOptions D isZero pr fuel ps = Ok lines /\ loadLines D zero m9999 rd lines (empty_set D) = Ok s /\
    holds D s qs /\ Forall2 (kept D) ps qs.
Proof. exact (fun D => writeOptions_real D (fun x _ => x)). Qed.
Print Assumptions C63_options_partial.
Example C63_example : writeOptions Z isZ0 prZ 9 [parZ "m" 2 3 0 0; parZ "w" 0 2 1 4] =
  Ok [[S_ "m"; S_ "Fix"; prZ 3; prZ 1]; [S_ "w"; S_ "Free"; prZ 2; prZ 1; prZ 1; prZ 4]].
Proof. vm_compute. reflexivity. Qed.
Definition reload (ps : list (param Z)) : res (list (param Z)) :=
  bind (writeOptions Z isZ0 prZ 99 ps) (fun l => bind (loadLines Z 0%Z (-9999)%Z rdZ l (empty_set Z)) (fun s => Ok (heap Z s))).
(** A range from 0 to 4 is lost: the parameter comes back unlimited. *)
Theorem C63_limit_refuted : exists p q, minInit Z p = 0%Z /\ maxInit Z p = 4%Z /\ reload [p] = Ok [q] /\ minInit Z q = 0%Z /\ maxInit Z q = 0%Z.
Proof. exists (parZ "w" 0 2 0 4). eexists. repeat split; vm_compute; reflexivity. Qed.
(** A complex parameter of which only one component has limits is written as nine words, which declare nothing. *)
Theorem C63_complex_refuted : exists ps, ps = [parZ "a_Re" 0 2 1 4; parZ "a_Im" 0 2 0 0] /\ reload ps = Ok [].
Proof. eexists. split; [reflexivity|]. vm_compute. reflexivity. Qed.
(** A name with "_Re" inside as well as at the end is not written at all. *)
Theorem C63_name_refuted : exists ps, ps = [parZ "a_Res_Re" 0 2 0 0; parZ "a_Ims_Im" 0 2 0 0] /\ reload ps = Ok [].
Proof. eexists. split; [reflexivity|]. vm_compute. reflexivity. Qed.

(** ** C64 *)
(** Covariance by name, for the covariance of the minimiser spread over all parameters (C13). *)
Theorem C64_by_name : forall D (zero : D) (C : nat -> nat -> D) ps m, NoDup (map (name D) ps) -> NoDup m -> exists c F,
  store_cov D zero C (List.length m) = Some c /\ covMatrixFull D zero c m = Ok F /\
  (forall i j a b p q, nth_error m i = Some a -> nth_error m j = Some b -> nth_error ps a = Some p -> nth_error ps b = Some q ->
     cov_by_name D F ps (name D p) (name D q) = Ok (C i j)) /\
  (forall a b p q, ~ (In a m /\ In b m) -> nth_error ps a = Some p -> nth_error ps b = Some q ->
     cov_by_name D F ps (name D p) (name D q) = Ok zero).
Proof.
  intros D zero C ps m ND NDm. destruct (cov_full D zero C m NDm) as (c & F & E1 & E2 & _ & H1 & H2). exists c, F.
  split; [exact E1|]. split; [exact E2|]. split.
  - intros i j a b p q Ei Ej Ea Eb. rewrite (cov_by_name_ok D F ps a b p q ND Ea Eb). f_equal. now apply H1.
  - intros a b p q N Ea Eb. rewrite (cov_by_name_ok D F ps a b p q ND Ea Eb). f_equal. now apply H2.
Qed.
Print Assumptions C64_by_name.
(** The reduced covariance belongs to the floating parameters in their order. *)
Theorem C64_reduced : forall D big ext (F : nat * nat -> D) ps i j p q,
  nth_error (floating D big ext ps) i = Some p -> nth_error (floating D big ext ps) j = Some q ->
  exists a b, nth_error ps a = Some p /\ nth_error ps b = Some q /\ reduced D F (floating_indices D big ext 0 ps) i j = Ok (F (a, b)).
Proof. exact reduced_ok. Qed.
Print Assumptions C64_reduced.
Example C64_example : let ps := [parZ "a" 2 1 0 0; parZ "b" 0 1 0 0; parZ "c" 4 1 0 0] in
  floating Z (Z.ltb 0) false ps = [parZ "b" 0 1 0 0; parZ "c" 4 1 0 0] /\
  reduced Z (fun ij => Z.of_nat (10 * fst ij + snd ij)) (floating_indices Z (Z.ltb 0) false 0 ps) 0 1 = Ok 12%Z /\
  cov_by_name Z (fun ij => Z.of_nat (10 * fst ij + snd ij)) ps (S_ "b") (S_ "c") = Ok 12%Z.
Proof. vm_compute. auto. Qed.
