(** The list of fit fractions of a coherent sum: src/CoherentSum.cpp:142-178, AmpGen/FitFraction.h:41-107, src/FitFraction.cpp:33-38,
    src/MatrixElement.cpp:34-41, 58-65, 76-83, src/AmplitudeRules.cpp:92-105, 177-180. Real numbers; the couplings and the integrals are those that
    prepare has left (C32-C34), the errors of the fractions are an argument (LinearErrorPropagator, C59). Printing is left out. *)
From Verif.Common Require Import Prelude.
From Coq Require Import Reals.
From Verif.Utilities Require Import Model.
From Verif.Coherent Require Import Model Spec Real.
Local Open Scope nat_scope.
(** AmpGen/AmplitudeRules.h:30-32: name, name of the decaying particle and prefix of a coupling. *)
Record coupling := Coupling { cname : str; chead : str; cprefix : str }.
(** AmpGen/MatrixElement.h: the decay descriptor of the element and the names of the couplings it is multiplied with. *)
Record melem := Melem { descriptor : str; couplings : list str }.
Definition has_text (s label : str) : bool := match find0 label s with Some _ => true | None => false end.
(** src/AmplitudeRules.cpp:177-180 *)
Definition contains (m : melem) (label : str) : bool := existsb (fun c => has_text c label) (couplings m).
(** The loops over the elements of src/MatrixElement.cpp:34-41 and 76-83. *)
Fixpoint select (f : melem -> bool) (l : list melem) (i : nat) : list nat :=
  match l with [] => [] | m :: r => if f m then i :: select f r (S i) else select f r (S i) end.
Definition processIndex (tm : list melem) (label : str) : list nat := select (fun m => contains m label) tm 0.
Definition findIndices (tm : list melem) (d : str) : list nat := select (fun m => has_text (descriptor m) d) tm 0.
(** src/MatrixElement.cpp:58-65 *)
Fixpoint findIndex_from (tm : list melem) (d : str) (i : nat) : nat :=
  match tm with [] => 999 | m :: r => if str_eqb (descriptor m) d then i else findIndex_from r d (S i) end.
Definition findIndex (tm : list melem) (d : str) : nat := findIndex_from tm d 0.
(** src/AmplitudeRules.cpp:92-105; the rules are a std::map, here its list of entries. *)
Definition rules_t := list (str * list coupling).
Fixpoint lookup (rs : rules_t) (h : str) : list coupling := match rs with [] => [] | (k, cs) :: r => if str_eqb k h then cs else lookup r h end.
Definition rulesForDecay (rs : rules_t) (h prefix : str) : list coupling :=
  match prefix with [] => lookup rs h | _ => filter (fun c => str_eqb (cprefix c) prefix) (lookup rs h) end.

(** AmpGen/FitFraction.h:41-49 *)
Record fcalc := FCalc { fname : str; fi : list nat; fj : list nat }.
Record fraction := Fraction { frname : str; value : R; error : R }.
Section Fractions.
  Variables (nm g : list (cplx R)).
  (** The errors of the values of a calculator: LinearErrorPropagator::getVectorError on it. *)
  Variable errors : list nat -> list fcalc -> list R.
  (** AmpGen/FitFraction.h:62-75 *)
  Fixpoint values (normset : list nat) (cs : list fcalc) : res (list R) :=
    match cs with [] => Ok [] | c :: r => bind (ff_val R RS nm g normset (fi c) (fj c)) (fun v => bind (values normset r) (fun vs => Ok (v :: vs))) end.
  Definition evaluate (normset : list nat) (cs : list fcalc) : res (list R) := bind (values normset cs) (fun vs => Ok (vs ++ [fold_left Rplus vs 0%R])).
  (** AmpGen/FitFraction.h:100-101 *)
  Fixpoint zip (cs : list fcalc) (vs es : list R) : res (list fraction) :=
    match cs with
    | [] => Ok []
    | c :: r => match vs, es with v :: vs', e :: es' => bind (zip r vs' es') (fun fs => Ok (Fraction (fname c) v e :: fs)) | _, _ => UB end
    end.
  (** std::sort with src/FitFraction.cpp:33-35. The order of equal ones is not specified by std::sort; the theorems do not depend on it. *)
  Definition fless (a b : fraction) : bool := if Rlt_dec (Rabs (value a)) (Rabs (value b)) then true else false.
  Fixpoint insert (f : fraction) (l : list fraction) : list fraction := match l with [] => [f] | h :: r => if fless h f then h :: insert f r else f :: l end.
  Definition sort (l : list fraction) : list fraction := fold_right insert [] l.
  Definition last_of (l : list R) : res R := of_opt (nth_error (rev l) 0).
  (** AmpGen/FitFraction.h:95-107 *)
  Definition calculate (name : str) (normset : list nat) (cs : list fcalc) : res (list fraction) :=
    bind (evaluate normset cs) (fun vs => let es := errors normset cs in
    bind (zip cs vs es) (fun fs => bind (last_of vs) (fun v => bind (last_of es) (fun e => Ok (rev (sort fs) ++ [Fraction (S_ "Sum_" ++ name) v e]))))).
  Variable mes : list melem.
  Variables (mother prefix : str).
  Definition list_eqb (a b : list nat) : bool := if list_eq_dec Nat.eq_dec a b then true else false.
  (** src/CoherentSum.cpp:151-157 *)
  Fixpoint collect (normset : list nat) (ps : list coupling) : list fcalc :=
    match ps with
    | [] => []
    | p :: r => if str_eqb (chead p) mother && negb (str_eqb (cprefix p) prefix) then collect normset r
                else let is := processIndex mes (cname p) in
                     if (List.length is =? 0) || list_eqb is normset then collect normset r else FCalc (cname p) is is :: collect normset r
    end.
  (** src/CoherentSum.cpp:148-161 *)
  Fixpoint blocks (rs : rules_t) : res (list fraction) :=
    match rs with
    | [] => Ok []
    | (h, ps) :: r =>
        let normset := findIndices mes h in
        match collect normset ps with
        | [] => blocks r
        | cs => bind (calculate h normset cs) (fun fs => bind (blocks r) (fun rest => Ok (fs ++ rest)))
        end
    end.
  (** src/CoherentSum.cpp:164-172 *)
  Fixpoint interference (ps : list coupling) : list fcalc :=
    match ps with
    | [] => []
    | p :: r => map (fun q => FCalc (cname p ++ S_ "x" ++ cname q) (processIndex mes (cname p)) (processIndex mes (cname q))) r ++ interference r
    end.
  (** src/CoherentSum.cpp:142-178 *)
  Definition fitFractions (rs : rules_t) : res (list fraction) :=
    bind (blocks rs) (fun fs =>
    bind (calculate (mother ++ S_ "_interference") (findIndices mes mother) (interference (rulesForDecay rs mother prefix))) (fun ifs => Ok (fs ++ ifs))).
End Fractions.
