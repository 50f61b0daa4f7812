From Verif.Common Require Import Prelude.
From Coq Require Import NArith.
From Verif.Utilities Require Import Model.
From Verif.Objects Require Import Model Spec Proofs.
Local Open Scope nat_scope.

(** In any history of compilations and restarts in one directory, with or without a rebuild forced, every expression calls its own code, if the compiler accepts
    them and expressions whose names have the same hash have the same code. *)
Theorem C108_cache_partial : forall (K : Type) cc d (l : list (action K)), in_directory d l -> (forall e, In e (expressions l) -> cc (program e) = true) ->
  (forall e e', In e (expressions l) -> In e' (expressions l) -> FNV1a_hash (ename e) = FNV1a_hash (ename e') -> same e e') ->
  exists w fs, run cc l (System [] []) = Ok (w, fs) /\ Forall2 own (expressions l) fs.
Proof.
  intros K cc d l D C S. pose proof (compiles_directory d l D) as A. apply run_own.
  - intros x e H. apply C. now apply (A x).
  - intros x e _. split; cbn; discriminate.
  - intros x e e' H H'. destruct (A _ _ H) as [I [t E]], (A _ _ H') as [I' [t' E']]. apply same_program, S; [assumption|assumption|].
    apply (proj1 (object_iff d t t' e e' (proj1 D))). congruence.
Qed.
Print Assumptions C108_cache_partial.

(** A file that is not there yet and not loaded, as those in /tmp: the expression calls its own code. *)
Theorem C108_new_file : forall (K : Type) cc force fname tmp (e : expression K) w, cc (program e) = true ->
  at_ (object_ fname tmp e) (files w) = None -> at_ (object_ fname tmp e) (loaded w) = None ->
  exists w' f, compile cc force fname tmp e w = Ok (w', f) /\ own e f /\ at_ (object_ fname tmp e) (files w') = Some (program e).
Proof.
  intros K cc force fname tmp e w C F L. unfold compile. rewrite F. replace (if force then None else None) with (@None (library K)) by (destruct force; reflexivity).
  unfold build, compileSource. rewrite C. unfold dlopen. cbn [files loaded]. rewrite L, at_cons. destruct (str_dec _ _) as [_|N]; [|now contradiction N]. cbn [fst snd].
  rewrite link_own. cbn [bind fst]. eexists _, _. split; [reflexivity|]. split; [reflexivity|]. cbn [files]. rewrite at_cons. destruct (str_dec _ _) as [_|N]; [reflexivity|now contradiction N].
Qed.
Print Assumptions C108_new_file.

(** Files of other expressions stay as they are. *)
Theorem C108_other_files : forall (K : Type) cc force fname tmp (e : expression K) w w' f x, compile cc force fname tmp e w = Ok (w', f) -> x <> object_ fname tmp e ->
  at_ x (files w') = at_ x (files w).
Proof.
  intros K cc force fname tmp e w w' f x H N. unfold compile in H. destruct (if force then None else _) as [l|]; [|now apply (build_files _ _ _ _ _ _ _ H)].
  assert (E : files (snd (dlopen (object_ fname tmp e) w)) = files w) by (unfold dlopen; repeat (destruct (at_ _ _); [reflexivity|]); reflexivity).
  destruct (link e _) as [[g b]| | |]; try discriminate H. cbn [bind snd fst] in H. destruct b; [injection H as <- _; now rewrite E|]. rewrite <- E. now apply (build_files _ _ _ _ _ _ _ H).
Qed.
Print Assumptions C108_other_files.

(** In the same directory two expressions have the same file exactly if their names have the same hash. *)
Theorem C108_file_names : forall (K : Type) d t t' (e e' : expression K), d <> [] -> object_ d t e = object_ d t' e' <-> FNV1a_hash (ename e) = FNV1a_hash (ename e').
Proof. exact @object_iff. Qed.
Print Assumptions C108_file_names.

(** Many expressions in one file that has not been loaded: each calls its own code, if the compiler accepts the file, which it does not if two functions have the same name. *)
Theorem C108_one_file : forall (K : Type) cc x (es : list (expression K)) w, (forall p, cc p = true -> NoDup (map fst p)) -> cc (flat_map program es) = true -> at_ x (loaded w) = None ->
  exists w' fs, compile_all cc x es w = Ok (w', fs) /\ Forall2 own es fs.
Proof.
  intros K cc x es w N C L. unfold compile_all, compileSource. rewrite C. unfold dlopen. cbn [files loaded]. rewrite L, at_cons. destruct (str_dec x x) as [_|A]; [|now contradiction A]. cbn [fst snd].
  destruct (link_all_own _ es (N _ C) (incl_refl _)) as (fs & E & F). match goal with |- context [bind ?L _] => replace L with (Ok fs) by (symmetry; exact E) end. cbn [bind]. eexists _, _. split; [reflexivity|exact F].
Qed.
Print Assumptions C108_one_file.

(** Whatever is called after a compilation that ends: the main function is there, so it is never called as a null pointer. *)
Theorem C108_not_null : forall (K : Type) cc force fname tmp (e : expression K) w w' f, compile cc force fname tmp e w = Ok (w', f) -> exists c, m_fcn K f = Some c.
Proof.
  intros K cc force fname tmp e w w' f H. assert (L : forall h g b, link e h = Ok (g, b) -> exists c, m_fcn K g = Some c).
  { intros [l|] g b E; [|discriminate E]. unfold link in E. destruct (dlsym l _) as [c|]; [|discriminate E]. injection E as <- _. now exists c. }
  assert (B : forall x v v' g, build cc x e v = Ok (v', g) -> exists c, m_fcn K g = Some c).
  { intros x v v' g E. unfold build in E. destruct (link e _) as [[g' b]| | |] eqn:G; try discriminate E. cbn [bind] in E. injection E as _ <-. now apply L in G. }
  unfold compile in H. destruct (if force then None else _) as [l|]; [|now apply B in H]. destruct (link e _) as [[g b]| | |] eqn:G; try discriminate H. cbn [bind snd fst] in H.
  destruct b; [injection H as _ <-; now apply L in G|now apply B in H].
Qed.
Print Assumptions C108_not_null.

(** A file of another process that lacks the function for debugging or that for batches, which are now asked for, is written again with all of them. *)
Theorem C108_incomplete : forall (K : Type) cc fname tmp (e : expression K) w l c, cc (program e) = true ->
  at_ (object_ fname tmp e) (files w) = Some l -> at_ (object_ fname tmp e) (loaded w) = None -> dlsym l (programatic_name (ename e)) = Some c ->
  (db e <> None /\ dlsym l (programatic_name (ename e) ++ S_ "_DB") = None) \/ (batch e <> None /\ dlsym l (programatic_name (ename e) ++ S_ "_batch") = None) ->
  exists w' f, compile cc false fname tmp e w = Ok (w', f) /\ at_ (object_ fname tmp e) (files w') = Some (program e).
Proof.
  intros K cc fname tmp e w l c C F L N M. unfold compile. rewrite F. unfold dlopen at 1 2 3. rewrite L, F. cbn [fst snd].
  assert (E : exists g, link e (Some l) = Ok (g, false)).
  { unfold link. rewrite N. destruct M as [[D M]|[D M]]; rewrite M.
    - destruct (db e); [|now destruct D]. eexists. cbn [fst snd]. reflexivity.
    - destruct (batch e); [|now destruct D]. eexists. cbn [fst snd]. rewrite andb_false_r. reflexivity. }
  destruct E as (g & E). rewrite E. cbn [bind snd fst]. unfold build, compileSource. rewrite C. unfold dlopen. cbn [files loaded]. rewrite at_cons.
  destruct (str_dec _ _) as [_|A]; [|now contradiction A]. cbn [fst snd]. rewrite E. cbn [bind fst]. eexists _, _. split; [reflexivity|]. cbn [files]. rewrite at_cons.
  destruct (str_dec _ _) as [_|A]; [reflexivity|now contradiction A].
Qed.
Print Assumptions C108_incomplete.
(** Without a directory the temporary names keep compilations apart, also those of the same expression. *)
Theorem C108_temporary : forall (K : Type) tmp tmp' (e e' : expression K), List.length tmp = List.length tmp' -> tmp <> tmp' -> object_ [] tmp e <> object_ [] tmp' e'.
Proof. intros K tmp tmp' e e' L N E. apply N. unfold object_ in E. apply (f_equal (firstn (List.length tmp))) in E. rewrite !firstn_app, <- L, Nat.sub_diag in E.
  cbn [firstn] in E. rewrite !app_nil_r, firstn_all in E. rewrite L, firstn_all in E. exact E. Qed.
Print Assumptions C108_temporary.
Example C108_temporary_ex : object_ [] (S_ "/tmp/a") (Expr (S_ "x") 1 None None) = S_ "/tmp/a_" ++ to_string (FNV1a_hash (S_ "x")) ++ S_ ".so" /\ S_ "/tmp/a" <> S_ "/tmp/b".
Proof. split; [reflexivity|discriminate]. Qed.

(** ** Examples *)
Definition amp (n : string) (c : nat) : expression nat := Expr (S_ n) c None (Some (c + 100)).
(** A compiler that accepts what has no function twice. *)
Fixpoint distinct (l : list str) : bool := match l with [] => true | x :: r => negb (existsb (str_eqb x) r) && distinct r end.
Definition gcc (p : library nat) : bool := distinct (map fst p).
Definition kstar : expression nat := amp "D0{K*(892)bar0{K-,pi+},rho(770)0{pi+,pi-}}" 1.
Definition omega : expression nat := amp "D0{K*(892)bar0{K-,pi+},omega(782)0{pi+,pi-}}" 2.
Definition cached (force : bool) (e : expression nat) : action nat := Compile force (S_ "/home/user/cache/") (S_ "/tmp/libAmpGen-a.cpp") e.
Example C108_cache_ex : exists w fs, run gcc [cached false kstar; cached false omega; Restart; cached false omega; cached true kstar] (System [] []) = Ok (w, fs) /\
  Forall2 own [kstar; omega; omega; kstar] fs.
Proof.
  apply (C108_cache_partial _ gcc (S_ "/home/user/cache/")).
  - split; [discriminate|]. repeat constructor.
  - intros e I. cbn in I. destruct I as [<-|[<-|[<-|[<-|[]]]]]; reflexivity.
  - intros e e' I I'. cbn in I, I'. destruct I as [<-|[<-|[<-|[<-|[]]]]], I' as [<-|[<-|[<-|[<-|[]]]]]; intro H; try (vm_compute in H; discriminate H); repeat split.
Qed.
Example C108_one_file_ex : compile_all gcc (S_ "pdf.so") [kstar; omega] (System [] []) =
  Ok (System [(S_ "pdf.so", program kstar ++ program omega)] [(S_ "pdf.so", program kstar ++ program omega)], [Functions (Some 1) None (Some 101); Functions (Some 2) None (Some 102)]).
Proof. vm_compute. reflexivity. Qed.
Example C108_name_ex : programatic_name (S_ "D0{K*(892)bar0{K-,pi+},rho(770)0{pi+,pi-}}") = S_ "D0_Ks_892_bar0_Km_pip__rho_770_0_pip_pim__".
Proof. reflexivity. Qed.

(** A directory with compiled objects is used again though the code of an amplitude has changed (the file is found by the name of the amplitude alone): the old code is called
    (src/CompilerWrapper.cpp:93-96, src/CompiledExpressionBase.cpp:71). *)
Theorem C108_stale_refuted : exists (e e' : expression nat) w fs, ename e = ename e' /\ fcn e <> fcn e' /\
  run gcc [cached false e; Restart; cached false e'] (System [] []) = Ok (w, fs) /\ Forall2 own [e; e] fs.
Proof.
  exists (amp "D0{K*(892)bar0{K-,pi+},rho(770)0{pi+,pi-}}" 1), (amp "D0{K*(892)bar0{K-,pi+},rho(770)0{pi+,pi-}}" 3). do 2 eexists. split; [reflexivity|]. split; [discriminate|].
  split; [vm_compute; reflexivity|]. repeat constructor.
Qed.
Print Assumptions C108_stale_refuted.

(** Nor does ForceRebuild help within one process: the new library is written, but the one of the same name that is loaded is given again (src/CompilerWrapper.cpp:99-101). *)
Theorem C108_force_refuted : exists (e e' : expression nat) w fs, ename e = ename e' /\ fcn e <> fcn e' /\
  run gcc [cached false e; cached true e'] (System [] []) = Ok (w, fs) /\ at_ (object_ (S_ "/home/user/cache/") [] e') (files w) = Some (program e') /\ Forall2 own [e; e] fs.
Proof.
  exists (amp "D0{K*(892)bar0{K-,pi+},rho(770)0{pi+,pi-}}" 1), (amp "D0{K*(892)bar0{K-,pi+},rho(770)0{pi+,pi-}}" 3). do 2 eexists. split; [reflexivity|]. split; [discriminate|].
  split; [vm_compute; reflexivity|]. split; [vm_compute; reflexivity|]. repeat constructor.
Qed.
Print Assumptions C108_force_refuted.

(** If the compiler fails, the library of an earlier run is linked and the result is true (src/CompilerWrapper.cpp:100-105, 201). *)
Theorem C108_failure_refuted : exists cc (e e' : expression nat) w fs, ename e = ename e' /\ fcn e <> fcn e' /\ cc (program e') = false /\
  run cc [cached false e; Restart; cached true e'] (System [] []) = Ok (w, fs) /\ Forall2 own [e; e] fs.
Proof.
  exists (fun p => match p with (_, c) :: _ => c <? 2 | [] => true end), (amp "D0{K*(892)bar0{K-,pi+},rho(770)0{pi+,pi-}}" 1), (amp "D0{K*(892)bar0{K-,pi+},rho(770)0{pi+,pi-}}" 3).
  do 2 eexists. split; [reflexivity|]. split; [discriminate|]. split; [reflexivity|]. split; [vm_compute; reflexivity|]. repeat constructor.
Qed.
Print Assumptions C108_failure_refuted.

(** Two different amplitudes with the same hash of 32 bits: the second finds the library of the first, and the program stops with an exception instead of compiling it
    (src/CompilerWrapper.cpp:96, AmpGen/CompiledExpression.h:187). *)
Theorem C108_collision_refuted : exists e e' : expression nat, ename e <> ename e' /\ gcc (program e) = true /\ gcc (program e') = true /\
  (exists w fs, run gcc [cached false e] (System [] []) = Ok (w, fs)) /\ (exists w fs, run gcc [cached false e'] (System [] []) = Ok (w, fs)) /\
  run gcc [cached false e; cached false e'] (System [] []) = Throw.
Proof.
  exists (amp "D0{K*(1680)bar0[LASS]{K-,pi+},sigma[kMatrix.prod.0]{pi+,pi-}}" 1), (amp "D0{K*(1680)bar0[RelBW]{pi+,K-},PiPi10{pi+,pi-}}" 2).
  split; [discriminate|]. split; [vm_compute; reflexivity|]. split; [vm_compute; reflexivity|]. split; [do 2 eexists; vm_compute; reflexivity|]. split; [do 2 eexists; vm_compute; reflexivity|].
  vm_compute. reflexivity.
Qed.
Print Assumptions C108_collision_refuted.

(** Two names that differ only in characters that are replaced have the same function name, so a file with both is not accepted (src/CompiledExpressionBase.cpp:36-46). *)
Theorem C108_names_refuted : exists e e' : expression nat, ename e <> ename e' /\ gcc (program e) = true /\ gcc (program e') = true /\ gcc (program e ++ program e') = false /\
  compile_all gcc (S_ "pdf.so") [e; e'] (System [] []) = Throw.
Proof.
  exists (amp "D0{K*(892)bar0[BW.BL]{K-,pi+},pi0}" 1), (amp "D0{K*(892)bar0[BW;BL]{K-,pi+},pi0}" 2). split; [discriminate|]. repeat (split; [vm_compute; reflexivity|]). vm_compute. reflexivity.
Qed.
Print Assumptions C108_names_refuted.

(** Written again, but the function that was missing stays null in this process, since the file is loaded already (src/CompilerWrapper.cpp:96-103). *)
Theorem C108_incomplete_refuted : exists (e e' : expression nat) w fs, ename e = ename e' /\ fcn e = fcn e' /\ batch e' <> None /\
  run gcc [cached false e; Restart; cached false e'] (System [] []) = Ok (w, fs) /\ at_ (object_ (S_ "/home/user/cache/") [] e') (files w) = Some (program e') /\
  Forall2 own [e; e] fs /\ ~ Forall2 own [e; e'] fs.
Proof.
  exists (Expr (ename kstar) 1 None None), kstar. do 2 eexists. split; [reflexivity|]. split; [reflexivity|]. split; [discriminate|]. split; [vm_compute; reflexivity|]. split; [vm_compute; reflexivity|].
  split; [repeat constructor|]. intro H. inversion H as [|? ? ? ? _ H']. inversion H' as [|? ? ? ? H'' _]. discriminate H''.
Qed.
Print Assumptions C108_incomplete_refuted.
