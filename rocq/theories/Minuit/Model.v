(** Transcription of src/MinuitParameter.cpp, src/MinuitParameterSet.cpp and the parameter handling of
    src/Minimiser.cpp. *)
From Verif.Common Require Export Prelude.
From Verif.Common Require Import Writes.
From Verif.Enum Require Import Model.

(** The text of the flags, src/MinuitParameter.cpp:13, and their numbers, AmpGen/MinuitParameter.h:13. *)
Definition flag_text : str := S_ "Free, Hide, Fix, CompileTimeConstant, Blind, Invalid".
Definition Free : Z := 0. Definition Hide : Z := 1. Definition Fix : Z := 2. Definition CompileTimeConstant : Z := 3.
Definition Blind : Z := 4. Definition Invalid : Z := 5.
Definition parse_flag (w : str) : Z := enum_parse Invalid w flag_text.

Section Minuit.
  (** [double]: only copied, compared with zero and (for blinding) added, so any type will do. [num] is
      lexical_cast<double> (src/Utilities.cpp:419-425, C strtod): the number, or None when the status becomes false. *)
  Variables (D : Type) (zero m9999 : D) (num : str -> option D).

  (** AmpGen/MinuitParameter.h:59-69 *)
  Record param := { name : str; flag : Z; meanInit : D; stepInit : D; minInit : D; maxInit : D;
                    mean : D; errPos : D; errNeg : D; err : D; index : Z }.

  (** src/MinuitParameter.cpp:79-85 *)
  Definition resetToInit (p : param) : param :=
    {| name := name p; flag := flag p; meanInit := meanInit p; stepInit := stepInit p; minInit := minInit p;
       maxInit := maxInit p; mean := meanInit p; errPos := m9999; errNeg := m9999; err := stepInit p; index := index p |}.

  (** src/MinuitParameter.cpp:16-22 *)
  Definition mkParam (n : str) (f : Z) (m s mi ma : D) : param :=
    resetToInit {| name := n; flag := f; meanInit := m; stepInit := s; minInit := mi; maxInit := ma;
                   mean := zero; errPos := zero; errNeg := zero; err := zero; index := -1 |}.

  (** src/MinuitParameter.cpp:24-29. The delegated constructor gets references to the members of the object under
      construction, which are then initialised from themselves: an indeterminate value is read. [cell] is the memory
      of a member, [None] before its initialisation. *)
  Definition cell := option D.
  Definition init_from (c : cell) : res D := match c with Some d => Ok d | None => UB end.
  Definition mkParam_cells (n : str) (f : Z) (m s mi ma : cell) : res param :=
    bind (init_from m) (fun m' => bind (init_from s) (fun s' => bind (init_from mi) (fun mi' => bind (init_from ma) (fun ma' =>
      Ok (mkParam n f m' s' mi' ma'))))).
  Definition mkParam_value (n : str) (m s mi ma : D) : res param := mkParam_cells n Free None None None None.

  (** src/MinuitParameter.cpp:40-42 *)
  Definition isFixed (p : param) : bool := (Z.eqb (flag p) Fix || Z.eqb (flag p) CompileTimeConstant)%bool.
  Definition isFree (p : param) : bool := Z.eqb (flag p) Free.
  Definition isBlind (p : param) : bool := Z.eqb (flag p) Blind.

  (** src/MinuitParameter.cpp:60,77,46 and AmpGen/MinuitParameter.h:54 *)
  Definition setCurrentFitVal (v : D) (p : param) : param :=
    {| name := name p; flag := flag p; meanInit := meanInit p; stepInit := stepInit p; minInit := minInit p;
       maxInit := maxInit p; mean := v; errPos := errPos p; errNeg := errNeg p; err := err p; index := index p |}.
  Definition setName (n : str) (p : param) : param :=
    {| name := n; flag := flag p; meanInit := meanInit p; stepInit := stepInit p; minInit := minInit p;
       maxInit := maxInit p; mean := mean p; errPos := errPos p; errNeg := errNeg p; err := err p; index := index p |}.
  Definition setFlag (f : Z) (p : param) : param :=
    {| name := name p; flag := f; meanInit := meanInit p; stepInit := stepInit p; minInit := minInit p;
       maxInit := maxInit p; mean := mean p; errPos := errPos p; errNeg := errNeg p; err := err p; index := index p |}.
  Definition setMinuitIndex (i : Z) (p : param) : param :=
    {| name := name p; flag := flag p; meanInit := meanInit p; stepInit := stepInit p; minInit := minInit p;
       maxInit := maxInit p; mean := mean p; errPos := errPos p; errNeg := errNeg p; err := err p; index := i |}.

  (** AmpGen/MinuitParameterSet.h:64-66. [heap] holds the parameter objects created so far (an address is a position
      in it; objects are never moved); [vec], [keys] and [mapping] are the three members. *)
  Record pset := { heap : list param; vec : list nat; keys : list (str * nat); mapping : list nat }.
  Definition empty_set : pset := {| heap := []; vec := []; keys := []; mapping := [] |}.

  Fixpoint key_find (k : str) (m : list (str * nat)) : option nat :=
    match m with [] => None | (k', v) :: t => if str_eqb k k' then Some v else key_find k t end.
  Definition key_erase (k : str) (m : list (str * nat)) : list (str * nat) :=
    filter (fun e => negb (str_eqb k (fst e))) m.
  Definition deref (s : pset) (a : nat) : res param := of_opt (nth_error (heap s) a).
  Definition with_heap (h : list param) (s : pset) : pset :=
    {| heap := h; vec := vec s; keys := keys s; mapping := mapping s |}.
  (** Apply [f] to the object at address [a]. *)
  Definition modify (f : param -> param) (a : nat) (s : pset) : res pset :=
    bind (deref s a) (fun p => bind (of_opt (set_at a (f p) (heap s))) (fun h => Ok (with_heap h s))).

  (** [new]: the address of a new object. *)
  Definition alloc (p : param) (s : pset) : nat * pset := (List.length (heap s), with_heap (heap s ++ [p]) s).

  (** src/MinuitParameterSet.cpp:30-42; the null pointer is [None]. The pointer is pushed (line 34) before the name
      is looked up (line 35). *)
  Definition addToEnd (ptr : option nat) (s : pset) : res (bool * pset) :=
    match ptr with
    | None => Ok (false, s)
    | Some a =>
        bind (deref s a) (fun p =>
        let s1 := {| heap := heap s; vec := vec s ++ [a]; keys := keys s; mapping := mapping s |} in
        match key_find (name p) (keys s) with
        | Some _ => Ok (false, s1)
        | None => Ok (true, {| heap := heap s; vec := vec s ++ [a]; keys := keys s ++ [(name p, a)]; mapping := mapping s |})
        end)
    end.
  Definition add_new (p : param) (s : pset) : res (bool * pset) :=
    let '(a, s1) := alloc p s in addToEnd (Some a) s1.

  (** src/MinuitParameterSet.cpp:53-61 *)
  Definition unregister (a : nat) (s : pset) : bool * pset :=
    if existsb (Nat.eqb a) (vec s)
    then (true, {| heap := heap s; vec := filter (fun b => negb (Nat.eqb a b)) (vec s); keys := keys s; mapping := mapping s |})
    else (false, s).

  (** src/MinuitParameterSet.cpp:251-255 *)
  Definition find (k : str) (s : pset) : option nat := key_find k (keys s).

  (** src/MinuitParameterSet.cpp:109-114; [None] is the null pointer. *)
  Definition at_ (i : nat) (s : pset) : option nat := nth_error (vec s) i.

  (** src/MinuitParameterSet.cpp:80-87: dereferences the end iterator when the key is missing. *)
  Definition subscript (k : str) (s : pset) : res nat := of_opt (key_find k (keys s)).

  (** src/MinuitParameterSet.cpp:219-235 *)
  Definition rename (k k' : str) (s : pset) : res (bool * pset) :=
    match find k s with
    | None => Ok (false, s)
    | Some a =>
        if str_eqb k k' then Ok (false, s)
        else match find k' s with
             | Some _ => Ok (false, s)
             | None =>
                 bind (modify (setName k') a s) (fun s1 =>
                 Ok (true, {| heap := heap s1; vec := vec s1; keys := key_erase k (keys s1) ++ [(k', a)]; mapping := mapping s1 |}))
             end
    end.

  (** src/MinuitParameterSet.cpp:237-242 and 44-49 *)
  Definition addOrGet (p : param) (s : pset) : res (nat * pset) :=
    match key_find (name p) (keys s) with
    | Some a => Ok (a, s)
    | None => bind (add_new p s) (fun '(_, s1) => bind (of_opt (key_find (name p) (keys s1))) (fun a => Ok (a, s1)))
    end.

  (** src/MinuitParameterSet.cpp:205-211; [other] gives the value of each parameter of the other set, through the
      operator of lines 89-96. *)
  Fixpoint set_from (other : str -> res D) (vs : list nat) (s : pset) : res pset :=
    match vs with
    | [] => Ok s
    | a :: t => bind (deref s a) (fun p => bind (other (name p)) (fun v =>
                bind (modify (setCurrentFitVal v) a s) (set_from other t)))
    end.

  (** src/MinuitParameterSet.cpp:117-155. Each missing number stops the function before anything is added. *)
  Definition tryParameter (line : list str) (s : pset) : res pset :=
    match line with
    | [n; f; m; st] =>
        match num m, num st with
        | Some m', Some st' =>
            if Z.eqb (parse_flag f) Invalid then Ok s
            else bind (add_new (mkParam n (parse_flag f) m' st' zero zero) s) (fun '(_, s1) => Ok s1)
        | _, _ => Ok s
        end
    | [n; f; m; st; mi; ma] =>
        match num m, num st, num mi, num ma with
        | Some m', Some st', Some mi', Some ma' =>
            if Z.eqb (parse_flag f) Invalid then Ok s
            else bind (add_new (mkParam n (parse_flag f) m' st' mi' ma') s) (fun '(_, s1) => Ok s1)
        | _, _, _, _ => Ok s
        end
    | [n; f1; m1; st1; f2; m2; st2] =>
        match num m1, num st1, num m2, num st2 with
        | Some m1', Some st1', Some m2', Some st2' =>
            if (Z.eqb (parse_flag f1) Invalid || Z.eqb (parse_flag f2) Invalid)%bool then Ok s
            else bind (add_new (mkParam (n ++ S_ "_Re") (parse_flag f1) m1' st1' zero zero) s) (fun '(_, s1) =>
                 bind (add_new (mkParam (n ++ S_ "_Im") (parse_flag f2) m2' st2' zero zero) s1) (fun '(_, s2) => Ok s2))
        | _, _, _, _ => Ok s
        end
    | [n; f1; m1; st1; mi1; ma1; f2; m2; st2; mi2; ma2] =>
        match num m1, num st1, num mi1, num ma1, num m2, num st2, num mi2, num ma2 with
        | Some m1', Some st1', Some mi1', Some ma1', Some m2', Some st2', Some mi2', Some ma2' =>
            if (Z.eqb (parse_flag f1) Invalid || Z.eqb (parse_flag f2) Invalid)%bool then Ok s
            else bind (add_new (mkParam (n ++ S_ "_Re") (parse_flag f1) m1' st1' mi1' ma1') s) (fun '(_, s1) =>
                 bind (add_new (mkParam (n ++ S_ "_Im") (parse_flag f2) m2' st2' mi2' ma2') s1) (fun '(_, s2) => Ok s2))
        | _, _, _, _, _, _, _, _ => Ok s
        end
    | _ => Ok s
    end.

  (** src/MinuitParameterSet.cpp:167-176, the part of loadFromStream that declares parameters (aliases and default
      conjugates left out). *)
  Fixpoint loadLines (lines : list (list str)) (s : pset) : res pset :=
    match lines with
    | [] => Ok s
    | l :: t => bind (tryParameter l s) (loadLines t)
    end.

  (** src/Minimiser.cpp:151-160: the positions of the floating parameters. *)
  Fixpoint floating_from (i : nat) (vs : list nat) (s : pset) : res (list nat) :=
    match vs with
    | [] => Ok []
    | a :: t => bind (deref s a) (fun p => bind (floating_from (S i) t s) (fun r =>
                Ok (if (isFree p || isBlind p)%bool then i :: r else r)))
    end.

  (** src/MinuitParameterSet.cpp:275-279 *)
  Fixpoint setIndices (i : nat) (m : list nat) (s : pset) : res pset :=
    match m with
    | [] => Ok s
    | j :: t => bind (of_opt (at_ j s)) (fun a => bind (modify (setMinuitIndex (Z.of_nat i)) a s) (setIndices (S i) t))
    end.
  Definition setMapping (m : list nat) (s : pset) : res pset :=
    setIndices 0 m {| heap := heap s; vec := vec s; keys := keys s; mapping := m |}.

  (** src/Minimiser.cpp:143-162, the state of the parameter set after prepare. *)
  Definition prepare (s : pset) : res pset := bind (floating_from 0 (vec s) s) (fun m => setMapping m s).

  (** src/MinuitParameterSet.cpp:270-273 and, with the same effect, src/Minimiser.cpp:87-89. [xx] is the array of the
      minimiser; reading past its end is undefined. *)
  Fixpoint setValues (m : list nat) (xx : list D) (s : pset) : res pset :=
    match m with
    | [] => Ok s
    | j :: t =>
        bind (of_opt (at_ j s)) (fun a =>
        match xx with
        | [] => UB
        | x :: xs => bind (modify (setCurrentFitVal x) a s) (setValues t xs)
        end)
    end.
  Definition setFromMinuit (xx : list D) (s : pset) : res pset := setValues (mapping s) xx s.

  (** AmpGen/MinuitParameter.h:53 *)
  Definition setFromMinuitState (xx : list D) (p : param) : res param :=
    if Z.eqb (index p) (-1) then Ok p
    else if Z.ltb (index p) 0 then UB
    else bind (of_opt (nth_error xx (Z.to_nat (index p)))) (fun v => Ok (setCurrentFitVal v p)).

  (** src/Minimiser.cpp:206-213: the covariance as stored after a fit; [C] is the answer of the minimiser. *)
  Definition pairs (n : nat) : list (nat * nat) := flat_map (fun i => map (fun j => (i, j)) (seq 0 n)) (seq 0 n).
  Definition store_cov (C : nat -> nat -> D) (n : nat) : option (list D) :=
    fold_left (fun o ij => match o with
                           | None => None
                           | Some l => set_at (fst ij + n * snd ij) (C (fst ij) (snd ij)) l
                           end) (pairs n) (Some (repeat zero (n * n))).

  (** src/Minimiser.cpp:297-307 (element i,j) *)
  Definition covMatrix (cov : list D) (n i j : nat) : res D := of_opt (nth_error cov (i + j * n)).

  (** src/Minimiser.cpp:309-319. A fresh TMatrixTSym is zero; assignment touches one element. *)
  Definition covMatrixFull (cov : list D) (m : list nat) : res (nat * nat -> D) :=
    let n := List.length m in
    fold_left (fun o ij =>
      bind o (fun f =>
      match nth_error m (fst ij), nth_error m (snd ij), nth_error cov (fst ij + snd ij * n) with
      | Some a, Some b, Some v => Ok (fun ab => if (Nat.eqb (fst ab) a && Nat.eqb (snd ab) b)%bool then v else f ab)
      | _, _, _ => UB
      end)) (pairs n) (Ok (fun _ => zero)).

  (** src/MinuitParameterSet.cpp:265-268: deleting the same object twice is undefined. The result is the list of
      deleted objects. *)
  Fixpoint destroy (vs deleted : list nat) : res (list nat) :=
    match vs with
    | [] => Ok deleted
    | a :: t => if existsb (Nat.eqb a) deleted then UB else destroy t (deleted ++ [a])
    end.
End Minuit.
