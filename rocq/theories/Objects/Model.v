(** Compilation and linking of expressions, and the files with compiled objects: src/CompilerWrapper.cpp:70-133, 152-202; AmpGen/CompiledExpression.h:183-195;
    AmpGen/DynamicFCN.h:60-70; src/CompiledExpressionBase.cpp:36-46, 71, 87-125 (the names of the functions in the source).
    Of the system: a library is the list of its functions by name; dlopen of a file that is loaded already gives the loaded library again (libraries
    are not closed here); dlsym of a null handle finds none of the functions. The compiler is a function that accepts a program or not; its exit status is not used.
    The code of a function is an element of K. A name of a file that ends in ".cpp" has ".so" as replaced extension. Source files are left out, so are the symbols
    _name, _wParams and those for python, messages, and threads. *)
From Verif.Common Require Import Prelude.
From Coq Require Import NArith Decimal DecimalString.
From Verif.Utilities Require Import Model.
Local Open Scope nat_scope.
(** src/CompiledExpressionBase.cpp:36-46; the character set is ASCII. [s[0]] of an empty text is its terminator. *)
Definition isdigit (c : ascii) : bool := let n := nat_of_ascii c in (48 <=? n) && (n <=? 57).
Definition isalnum (c : ascii) : bool := let n := nat_of_ascii c in isdigit c || (65 <=? n) && (n <=? 90) || (97 <=? n) && (n <=? 122).
Definition replace (a b : ascii) (s : str) : str := map (fun c => if Ascii.eqb c a then b else c) s.
Definition programatic_name (s : str) : str :=
  let s := replace "*" "s" (replace "-" "m" (replace "+" "p" (replace "-" "m" s))) in
  let s := map (fun c => if isalnum c then c else "_"%char) s in
  let s := match s with c :: _ => if isdigit c then "f"%char :: s else s | [] => s end in
  replace "'" "_" s.
(** std::to_string *)
Definition to_string (n : N) : str := list_ascii_of_string (NilEmpty.string_of_uint (N.to_uint n)).
Section Compile.
  Variable K : Type.
  Definition library := list (str * K).
  (** m_name, the function, that for debugging (if m_db has elements), that for batches (unless m_disableBatch). *)
  Record expression := Expr { ename : str; fcn : K; db : option K; batch : option K }.
  Definition optional (x : str) (k : option K) : library := match k with Some c => [(x, c)] | None => [] end.
  (** src/CompiledExpressionBase.cpp:87-125 *)
  Definition program (e : expression) : library :=
    let x := programatic_name (ename e) in (x, fcn e) :: optional (x ++ S_ "_DB") (db e) ++ optional (x ++ S_ "_batch") (batch e).
  (** m_fcn, m_fdb, m_batchFcn; None: null. *)
  Record functions := Functions { m_fcn : option K; m_fdb : option K; m_batchFcn : option K }.
  Definition dlsym (l : library) (x : str) : option K := option_map snd (find (fun f => str_eqb (fst f) x) l).
  (** AmpGen/CompiledExpression.h:183-191 with AmpGen/DynamicFCN.h:60-70: the first function is fatal if missing. *)
  Definition link (e : expression) (handle : option library) : res (functions * bool) :=
    match handle with
    | None => Throw
    | Some l => let x := programatic_name (ename e) in
        match dlsym l x with
        | None => Throw
        | Some f =>
            let d := match db e with None => (None, true) | Some _ => (dlsym l (x ++ S_ "_DB"), match dlsym l (x ++ S_ "_DB") with Some _ => true | None => false end) end in
            let b := match batch e with None => (None, true) | Some _ => (dlsym l (x ++ S_ "_batch"), match dlsym l (x ++ S_ "_batch") with Some _ => true | None => false end) end in
            Ok (Functions (Some f) (fst d) (fst b), snd d && snd b)
        end
    end.
  (** The files with libraries, and the libraries that the process has loaded. *)
  Record system := System { files : list (str * library); loaded : list (str * library) }.
  Definition at_ (x : str) (l : list (str * library)) : option library := option_map snd (find (fun f => str_eqb (fst f) x) l).
  Definition dlopen (x : str) (w : system) : option library * system :=
    match at_ x (loaded w) with
    | Some l => (Some l, w)
    | None => match at_ x (files w) with Some l => (Some l, System (files w) ((x, l) :: loaded w)) | None => (None, w) end
    end.
  Variable cc : library -> bool.
  (** src/CompilerWrapper.cpp:152-202 *)
  Definition compileSource (p : library) (x : str) (w : system) : system := if cc p then System ((x, p) :: files w) (loaded w) else w.
  (** src/CompilerWrapper.cpp:91-94; [tmp]: the name that generateFilename gives. *)
  Definition object_ (fname tmp : str) (e : expression) : str :=
    (match fname with [] => tmp | _ => fname end) ++ S_ "_" ++ to_string (FNV1a_hash (ename e)) ++ S_ ".so".
  Definition build (x : str) (e : expression) (w : system) : res (system * functions) :=
    let o := dlopen x (compileSource (program e) x w) in bind (link e (fst o)) (fun r => Ok (snd o, fst r)).
  (** src/CompilerWrapper.cpp:88-105; the result is true whenever there is one. [force]: CompilerWrapper::ForceRebuild. *)
  Definition compile (force : bool) (fname tmp : str) (e : expression) (w : system) : res (system * functions) :=
    let x := object_ fname tmp e in
    match (if force then None else at_ x (files w)) with
    | None => build x e w
    | Some _ => let o := dlopen x w in bind (link e (fst o)) (fun r => if snd r then Ok (snd o, fst r) else build x e (snd o))
    end.
  (** src/CompilerWrapper.cpp:108-133: all in one file [x]. *)
  Fixpoint link_all (es : list expression) (handle : option library) : res (list functions) :=
    match es with [] => Ok [] | e :: r => bind (link e handle) (fun f => bind (link_all r handle) (fun fs => Ok (fst f :: fs))) end.
  Definition compile_all (x : str) (es : list expression) (w : system) : res (system * list functions) :=
    let o := dlopen x (compileSource (flat_map program es) x w) in bind (link_all es (fst o)) (fun fs => Ok (snd o, fs)).
  (** What is done with a directory: compilations, and the end of the process. *)
  Inductive action := Compile (force : bool) (fname tmp : str) (e : expression) | Restart.
  Fixpoint run (l : list action) (w : system) : res (system * list functions) :=
    match l with
    | [] => Ok (w, [])
    | Restart :: r => run r (System (files w) [])
    | Compile force fname tmp e :: r => bind (compile force fname tmp e w) (fun x => bind (run r (fst x)) (fun y => Ok (fst y, snd x :: snd y)))
    end.
End Compile.
Arguments Expr {K} ename fcn db batch. Arguments ename {K} e. Arguments fcn {K} e. Arguments db {K} e. Arguments batch {K} e.
Arguments program {K} e. Arguments Functions {K} m_fcn m_fdb m_batchFcn. Arguments System {K} files loaded. Arguments files {K} s. Arguments loaded {K} s.
Arguments link {K} e handle. Arguments dlsym {K} l x. Arguments at_ {K} x l. Arguments dlopen {K} x w. Arguments object_ {K} fname tmp e. Arguments compile {K} cc force fname tmp e w.
Arguments compile_all {K} cc x es w. Arguments Compile {K} force fname tmp e. Arguments Restart {K}. Arguments run {K} cc l w. Arguments build {K} cc x e w. Arguments link_all {K} es handle.
Arguments compileSource {K} cc p x w. Arguments optional {K} x k.
