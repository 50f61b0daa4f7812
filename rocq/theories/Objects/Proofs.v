From Verif.Common Require Import Prelude.
From Coq Require Import NArith Decimal DecimalString DecimalN.
From Verif.Utilities Require Import Model.
From Verif.Objects Require Import Model Spec.
Local Open Scope nat_scope.
Lemma to_string_inj n m : to_string n = to_string m -> n = m.
Proof.
  unfold to_string. intro H. apply (f_equal string_of_list_ascii) in H. rewrite !string_of_list_ascii_of_string in H.
  apply (f_equal NilEmpty.uint_of_string) in H. rewrite !NilEmpty.usu in H. injection H as H. now apply Unsigned.to_uint_inj.
Qed.
Section Proofs.
  Context {K : Type}.
  Lemma object_iff d t t' (e e' : expression K) : d <> [] -> object_ d t e = object_ d t' e' <-> FNV1a_hash (ename e) = FNV1a_hash (ename e').
  Proof.
    intro N. unfold object_. destruct d as [|c d]; [now contradiction N|]. split.
    - intro H. apply app_inv_head, app_inv_head, app_inv_tail in H. now apply to_string_inj.
    - intros ->. reflexivity.
  Qed.
  Lemma same_program (e e' : expression K) : same e e' -> program e = program e'.
  Proof. intros (A & B & C & D). unfold program. now rewrite A, B, C, D. Qed.
  Lemma longer (x : str) a r : str_eqb x (x ++ a :: r) = false.
  Proof. apply str_eqb_neq. intro H. apply (f_equal (@List.length _)) in H. rewrite app_length in H. cbn in H. lia. Qed.
  Lemma suffix (x y z : str) : y <> z -> str_eqb (x ++ y) (x ++ z) = false.
  Proof. intro N. apply str_eqb_neq. intro H. now apply app_inv_head in H. Qed.
  Lemma link_own (e : expression K) : link e (Some (program e)) = Ok (Functions (Some (fcn e)) (db e) (batch e), true).
  Proof.
    unfold link, dlsym, program. cbn [find fst snd option_map]. rewrite str_eqb_refl. cbn [option_map snd].
    change (S_ "_DB") with ("_"%char :: S_ "DB"). change (S_ "_batch") with ("_"%char :: S_ "batch"). rewrite !longer.
    destruct (db e) as [d|], (batch e) as [b|]; cbn [optional app find fst snd option_map]; rewrite ?str_eqb_refl; cbn [option_map snd fst];
      rewrite ?suffix by discriminate; cbn [find fst]; rewrite ?str_eqb_refl; reflexivity.
  Qed.
  Lemma at_cons x y (l : library K) r : at_ x ((y, l) :: r) = if str_dec y x then Some l else at_ x r.
  Proof. unfold at_. cbn [find fst]. destruct (str_dec y x) as [->|N]; [now rewrite str_eqb_refl|]. now rewrite (proj2 (str_eqb_neq _ _) N). Qed.
  (** All libraries of a file are [p]. *)
  Definition holds (x : str) (p : library K) (w : system K) : Prop := (forall l, at_ x (files w) = Some l -> l = p) /\ (forall l, at_ x (loaded w) = Some l -> l = p).
  Lemma dlopen_holds x p y w : holds x p w -> holds x p (snd (dlopen y w)).
  Proof.
    intros [F L]. unfold dlopen. destruct (at_ y (loaded w)) as [l|] eqn:E; [split; assumption|]. destruct (at_ y (files w)) as [l|] eqn:G; [|split; assumption].
    cbn [snd]. split; cbn [files loaded]; [exact F|]. intros q. rewrite at_cons. destruct (str_dec y x) as [->|N]; [intro H; injection H as <-; now apply F|apply L].
  Qed.
  Lemma dlopen_gets x p w : holds x p w -> at_ x (files w) <> None -> fst (dlopen x w) = Some p.
  Proof.
    intros [F L] N. unfold dlopen. destruct (at_ x (loaded w)) as [l|] eqn:E; [cbn; f_equal; now apply L|]. destruct (at_ x (files w)) as [l|] eqn:G; [cbn; f_equal; now apply F|now contradiction N].
  Qed.
  Lemma source_holds cc x p y q w : holds x p w -> (y = x -> q = p) -> holds x p (compileSource cc q y w).
  Proof.
    intros [F L] H. unfold compileSource. destruct (cc q); [|split; assumption]. split; cbn [files loaded]; [|exact L].
    intros l. rewrite at_cons. destruct (str_dec y x) as [->|N]; [intro E; injection E as <-; now apply H|apply F].
  Qed.
  Lemma build_holds cc x p y e w w' f : build cc y e w = Ok (w', f) -> holds x p w -> (y = x -> program e = p) -> holds x p w'.
  Proof.
    unfold build. intros B H E. destruct (link e _) as [[g b]| | |]; try discriminate B. cbn [bind] in B. injection B as <- _. apply dlopen_holds. now apply source_holds.
  Qed.
  Lemma compile_holds cc force fname tmp x p e w w' f : compile cc force fname tmp e w = Ok (w', f) -> holds x p w -> (object_ fname tmp e = x -> program e = p) -> holds x p w'.
  Proof.
    unfold compile. intros B H E. destruct (if force then None else _) as [l|]; [|eapply build_holds; eassumption].
    destruct (link e _) as [[g b]| | |]; try discriminate B. cbn [bind] in B. cbn [snd fst] in B. destruct b.
    - injection B as <- _. apply dlopen_holds. exact H.
    - eapply build_holds; [exact B| |exact E]. apply dlopen_holds. exact H.
  Qed.
  Lemma build_own cc x e w : cc (program e) = true -> holds x (program e) w -> exists w', build cc x e w = Ok (w', Functions (Some (fcn e)) (db e) (batch e)).
  Proof.
    intros C H. unfold build. rewrite (dlopen_gets x (program e)); [rewrite link_own; cbn [bind fst]; eexists; reflexivity| |].
    - apply source_holds; [exact H|reflexivity].
    - unfold compileSource. rewrite C. cbn [files]. rewrite at_cons. destruct (str_dec x x) as [_|N]; [discriminate|now contradiction N].
  Qed.
  Lemma compile_own cc force fname tmp e w : cc (program e) = true -> holds (object_ fname tmp e) (program e) w ->
    exists w', compile cc force fname tmp e w = Ok (w', Functions (Some (fcn e)) (db e) (batch e)).
  Proof.
    intros C H. unfold compile. destruct force; [now apply build_own|]. destruct (at_ _ (files w)) as [l|] eqn:E; [|now apply build_own].
    rewrite (dlopen_gets _ (program e)); [rewrite link_own; cbn [bind fst snd]; eexists; reflexivity|exact H|]. now rewrite E.
  Qed.
  Lemma run_own cc l : forall w, (forall x e, compiles l x e -> cc (program e) = true) -> (forall x e, compiles l x e -> holds x (program e) w) ->
    (forall x e e', compiles l x e -> compiles l x e' -> program e = program e') -> exists w' fs, run cc l w = Ok (w', fs) /\ Forall2 own (expressions l) fs.
  Proof.
    induction l as [|[force fname tmp e|] l IH]; intros w C H S; cbn [run expressions].
    - exists w, []. split; [reflexivity|constructor].
    - destruct (compile_own cc force fname tmp e w) as [w1 E]; [eapply C; constructor|apply H; constructor|]. rewrite E. cbn [bind fst snd].
      destruct (IH w1) as (w' & fs & R & F).
      + intros x e' I. eapply C. constructor. exact I.
      + intros x e' I. eapply compile_holds; [exact E|apply H; constructor; exact I|]. intros <-. eapply S; [constructor|constructor; exact I].
      + intros x e1 e2 I I'. eapply S; constructor; eassumption.
      + rewrite R. cbn [bind fst snd]. eexists _, _. split; [reflexivity|]. constructor; [reflexivity|exact F].
    - apply IH.
      + intros x e I. eapply C. constructor. exact I.
      + intros x e I. destruct (H x e) as [F _]; [constructor; exact I|]. split; [exact F|]. cbn. discriminate.
      + intros x e1 e2 I I'. eapply S; constructor; eassumption.
  Qed.
  Lemma compiles_directory d l : in_directory d l -> forall x (e : expression K), compiles l x e -> In e (expressions l) /\ exists t, x = object_ d t e.
  Proof.
    intros [N F] x e H. induction H as [force fname tmp e r|a r x e H IH].
    - inversion F; subst. split; [now left|]. now exists tmp.
    - inversion F; subst. destruct IH as [I J]; [assumption|]. split; [|exact J]. destruct a; [now right|exact I].
  Qed.
  Lemma dlsym_in (l : library K) x c : NoDup (map fst l) -> In (x, c) l -> dlsym l x = Some c.
  Proof.
    unfold dlsym. induction l as [|[y d] l IH]; intros N I; [destruct I|]. cbn [map fst] in N. inversion N as [|? ? Ny N']; subst. cbn [find fst]. destruct I as [E|I].
    - injection E as -> ->. now rewrite str_eqb_refl.
    - destruct (str_eqb y x) eqn:B; [|now apply IH]. apply str_eqb_eq in B. subst y. exfalso. apply Ny. now apply (in_map fst) in I.
  Qed.
  Lemma link_incl (e : expression K) l : NoDup (map fst l) -> incl (program e) l -> link e (Some l) = Ok (Functions (Some (fcn e)) (db e) (batch e), true).
  Proof.
    intros N I. unfold link. rewrite (dlsym_in l _ (fcn e) N) by (apply I; now left).
    assert (D : forall d, db e = Some d -> dlsym l (programatic_name (ename e) ++ S_ "_DB") = Some d).
    { intros d E. apply dlsym_in; [exact N|]. apply I. right. apply in_or_app. left. rewrite E. now left. }
    assert (B : forall b, batch e = Some b -> dlsym l (programatic_name (ename e) ++ S_ "_batch") = Some b).
    { intros b E. apply dlsym_in; [exact N|]. apply I. right. apply in_or_app. right. rewrite E. now left. }
    destruct (db e) as [d|], (batch e) as [b|]; rewrite ?(D _ eq_refl), ?(B _ eq_refl); reflexivity.
  Qed.
  Lemma link_all_own l (es : list (expression K)) : NoDup (map fst l) -> incl (flat_map program es) l -> exists fs, link_all es (Some l) = Ok fs /\ Forall2 own es fs.
  Proof.
    intros N. induction es as [|e es IH]; intro I; cbn [link_all]; [exists []; split; [reflexivity|constructor]|]. cbn [flat_map] in I.
    rewrite (link_incl e l N) by (intros z Z; apply I, in_or_app; now left). cbn [bind fst]. destruct IH as (fs & E & F); [intros z Z; apply I, in_or_app; now right|].
    rewrite E. cbn [bind]. eexists. split; [reflexivity|]. constructor; [reflexivity|exact F].
  Qed.
  Lemma build_files cc x y (e : expression K) w w' f : build cc x e w = Ok (w', f) -> y <> x -> at_ y (files w') = at_ y (files w).
  Proof.
    unfold build. intros B N. destruct (link e _) as [[g b]| | |]; try discriminate B. cbn [bind] in B. injection B as <- _.
    assert (E : files (snd (dlopen x (compileSource cc (program e) x w))) = files (compileSource cc (program e) x w)) by (unfold dlopen; repeat (destruct (at_ x _); [reflexivity|]); reflexivity).
    rewrite E. unfold compileSource. destruct (cc (program e)); [|reflexivity]. cbn [files]. rewrite at_cons. destruct (str_dec x y) as [->|_]; [now contradiction N|reflexivity].
  Qed.
End Proofs.
