(** Terms of a likelihood that are configured by a text: src/ExtendLikelihoodBase.cpp:20-48, src/LASSO.cpp:24-29, src/PartialWidthConstraint.cpp:39-61,
    src/MatrixElement.cpp:67-74 (findIndex) and 88-95 (findIndices), AmpGen/ExtendLikelihoodBase.h:22-66, AmpGen/Factory.h:30-41, src/MinuitParameterSet.cpp:89-96.
    What the terms add to the likelihood is area Fit. The messages are left out. *)
From Coq Require Import Reals.
From Verif.Common Require Import Prelude.
From Verif.Coherent Require Import Model.
From Verif.Fit Require Import Model.
From Verif.Utilities Require Import Model.
Local Open Scope nat_scope.
(** What is used of a particle's properties. *)
Record properties := Properties { mass : R; mErrPlus : R; width_ : R; wErrPlus : R }.
Fixpoint position (x : str) (l : list str) : option nat :=
  match l with [] => None | y :: r => if str_eqb y x then Some 0 else option_map S (position x r) end.
(** src/MatrixElement.cpp:67-74, 88-95; the matrix elements are their decay descriptors. *)
Definition findIndex (l : list str) (d : str) : nat := match position d l with Some i => i | None => 999 end.
Fixpoint findIndices_from (i : nat) (l : list str) (d : str) : list nat :=
  match l with [] => [] | x :: r => match find0 d x with Some _ => i :: findIndices_from (S i) r d | None => findIndices_from (S i) r d end end.
Definition findIndices (l : list str) (d : str) : list nat := findIndices_from 0 l d.
(** A term; [Unset]: members that are not initialised, among them the null pointer to the amplitude, which are used by operator(). *)
Inductive term := Set_ (t : extended) | Unset.
Section Configure.
  (** std::stod ([None]: it throws), the table of particles, the names of the parameters (each once), the values of options by name. *)
  Variables (stod : str -> option R) (pdg : str -> option properties) (params : list str) (options : str -> list str).
  Definition number (x : str) : res R := match stod x with Some r => Ok r | None => Throw end.
  Definition token (ts : list str) (i : nat) : res str := of_opt (nth_error ts i).
  (** src/ExtendLikelihoodBase.cpp:25-44: mean and sigma if they are set. *)
  Definition gaussian_values (ts : list str) (name : str) : res (option (R * R)) :=
    match ts with
    | [_; _; x; y] => bind (number x) (fun m => bind (number y) (fun s => Ok (Some (m, s))))
    | [_; _; x] =>
        if str_eqb x (S_ "PDG") then
          bind (token (split name "_"%char true) 0) (fun particle => bind (token (split name "_"%char true) 1) (fun what =>
          if str_eqb what (S_ "mass") then bind (of_opt (pdg particle)) (fun p => Ok (Some (mass p, mErrPlus p)))
          else if str_eqb what (S_ "width") then bind (of_opt (pdg particle)) (fun p => Ok (Some (width_ p, wErrPlus p)))
          else Ok None))
        else Ok None
    | _ => Ok None
    end.
  (** src/ExtendLikelihoodBase.cpp:20-48: mps[name] of a name that does not exist uses the end of the map. *)
  Definition configure_gaussian (text : str) : res term :=
    let ts := split text " "%char true in
    bind (token ts 1) (fun name => bind (gaussian_values ts name) (fun v => bind (of_opt (position name params)) (fun k =>
    Ok (match v with Some (m, s) => Set_ (Gaussian k m s) | None => Unset end)))).
  (** The amplitude: the decay descriptors, or a null pointer. *)
  Variable pdf : option (list str).
  (** src/LASSO.cpp:24-29 *)
  Definition configure_lasso (text : str) : res term :=
    bind (token (split text " "%char true) 1) (fun x => bind (number x) (fun l => Ok (match pdf with Some _ => Set_ (Lasso l) | None => Unset end))).
  (** src/PartialWidthConstraint.cpp:39-61 *)
  Definition configure_width (text : str) : res term :=
    match pdf with
    | None => Throw
    | Some elements =>
        let ts := split text " "%char true in
        bind (token ts 1) (fun name => bind (token ts 2) (fun w => bind (number w) (fun weight => bind (token ts 3) (fun r => bind (number r) (fun ratio =>
        let den := options (name ++ S_ "_denChannels") in let num := options (name ++ S_ "_numChannels") in
        Ok (Set_ (PartialWidth (map (findIndex elements) num) (map (findIndex elements) den) weight ratio)))))))
    end.
  Inductive kind := KGaussian | KLasso | KWidth.
  Definition configure (k : kind) (text : str) : res term :=
    match k with KGaussian => configure_gaussian text | KLasso => configure_lasso text | KWidth => configure_width text end.
  (** AmpGen/Factory.h:30-41 with the names of REGISTER; [None]: a null pointer. *)
  Definition get (name : str) : option kind :=
    if str_eqb name (S_ "GaussianConstraint") then Some KGaussian else if str_eqb name (S_ "LASSO") then Some KLasso
    else if str_eqb name (S_ "PartialWidthConstraint") then Some KWidth else None.
End Configure.
(** operator() *)
Definition value (coefs norms : list R -> list (cplx R)) (v : list R) (t : term) : res R := match t with Set_ e => extend coefs norms v e | Unset => UB end.
(** A term made by the factory has no amplitude (create() without arguments). *)
Definition made (stod : str -> option R) (pdg : str -> option properties) (params : list str) (options : str -> list str) (name text : str) : option (res term) :=
  option_map (fun k => configure stod pdg params options None k text) (get name).
