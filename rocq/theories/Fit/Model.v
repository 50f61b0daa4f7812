(** The function a fit minimises, and what a fit does to the parameters: AmpGen/SumPDF.h, AmpGen/SimPDF.h, src/Minimiser.cpp,
    src/ExtendLikelihoodBase.cpp, src/LASSO.cpp, src/PartialWidthConstraint.cpp. Real numbers; the minimiser of ROOT is an oracle that evaluates
    the function at some points and answers. *)
From Coq Require Import Reals.
From Verif.Common Require Export Prelude.
From Verif.Common Require Import Writes.
From Verif.Coherent Require Import Model Real.
From Verif.Minuit Require Import Model.
From Verif.Kahan Require Model.
Local Open Scope R_scope.

(** *** Likelihoods *)
(** std::log; [None] is infinite or not a number. *)
Definition log_ (x : R) : option R := if Rlt_dec 0 x then Some (ln x) else None.
Section Likelihood.
  Variables (Q Ev : Type) (weight : Ev -> R).
  (** A density, with the parameters for which prepare() was last called; C32 and C83 are about real ones. *)
  Record pdf := Pdf { seen : Q; density : Q -> Ev -> R }.
  Definition prepare_pdf (q : Q) (f : pdf) : pdf := Pdf q (density f).
  (** AmpGen/SumPDF.h:99-105 *)
  Definition total (fs : list pdf) (x : Ev) : R := fold_left (fun prob f => prob + density f (seen f) x) fs 0.
  (** AmpGen/SumPDF.h:69-81: the parallel loop writes to separate cells. *)
  Definition fill_likelihood (fs : list pdf) (events : list Ev) : list (option R) :=
    map (fun x => match log_ (total fs x) with Some l => Some (weight x * l) | None => None end) events.
  Fixpoint all_numbers (l : list (option R)) : option (list R) :=
    match l with [] => Some [] | None :: _ => None | Some x :: r => match all_numbers r with Some xs => Some (x :: xs) | None => None end end.
  (** AmpGen/SumPDF.h:60-68, the summation in exact arithmetic; the pointer to the events may be null. *)
  Definition getVal (q : Q) (fs : list pdf) (events : option (list Ev)) : res (list pdf * option R) :=
    match events with
    | None => UB
    | Some evts =>
        let fs := map (prepare_pdf q) fs in
        Ok (fs, match all_numbers (fill_likelihood fs evts) with
                | Some tmp => Some (-2 * Kahan.Model.value (fun x => x) (Kahan.Model.adds (fun x => x) Kahan.Model.empty tmp))
                | None => None end)
    end.
End Likelihood.
Arguments Pdf {Q Ev}. Arguments seen {Q Ev}. Arguments density {Q Ev}.
(** AmpGen/SimPDF.h:12-17 *)
Definition simfit (lls : list R) : R := fold_left Rplus lls 0.

(** *** Extended terms *)
Inductive extended := Gaussian (param : nat) (mean sigma : R) | Lasso (lambda : R) | PartialWidth (num den : list nat) (weight ratio : R).
Section Terms.
  (** The couplings of the amplitude and the matrix of integrals, row by row, for the values of the parameters (C32). *)
  Variables (coefs norms : list R -> list (cplx R)).
  Definition entry (v : list R) (i j : nat) : res (cplx R) := of_opt (nth_error (norms v) (i * List.length (coefs v) + j)).
  (** src/PartialWidthConstraint.cpp:23-33; the integrals are taken as stored. *)
  Definition width_term (v : list R) (i j : nat) : res (cplx R) :=
    bind (of_opt (nth_error (coefs v) i)) (fun gi => bind (of_opt (nth_error (coefs v) j)) (fun gj => bind (entry v i j) (fun n =>
      Ok (cmul RS (cmul RS gi (cconj RS gj)) n)))).
  Definition width (v : list R) (is : list nat) : res R := bind (double_sum R RS is is (width_term v) (c0 RS)) (fun z => Ok (fst z)).
  Fixpoint lasso_sum (v : list R) (is : list nat) (acc : R) : res R :=
    match is with
    | [] => Ok acc
    | i :: r => bind (of_opt (nth_error (coefs v) i)) (fun c => bind (entry v i i) (fun n =>
        lasso_sum v r (acc + sqrt ((fst c * fst c + snd c * snd c) * fst n))))
    end.
  (** src/ExtendLikelihoodBase.cpp:15-18, src/LASSO.cpp:14-22, src/PartialWidthConstraint.cpp:17-37. Nothing is divided by zero in the theorems. *)
  Definition extend (v : list R) (t : extended) : res R :=
    match t with
    | Gaussian k m s => bind (of_opt (nth_error v k)) (fun x => Ok (- (x - m) * (x - m) / (2 * s * s)))
    | Lasso lambda => bind (lasso_sum v (seq 0 (List.length (coefs v))) 0) (fun s => Ok (lambda * s))
    | PartialWidth num den w r =>
        bind (width v num) (fun n => bind (width v den) (fun d => let ratio := n / d in Ok (w * (ratio - r) * (ratio - r))))
    end.
  (** src/Minimiser.cpp:90-92, for the values [v] of all parameters. *)
  Fixpoint extend_all (ts : list extended) (v : list R) (LL : R) : res R :=
    match ts with [] => Ok LL | t :: r => bind (extend v t) (fun e => extend_all r v (LL - 2 * e)) end.
  Definition objective (fcn : list R -> R) (ts : list extended) (ll_zero : R) (v : list R) : res R :=
    bind (extend_all ts v (fcn v)) (fun LL => Ok (LL - ll_zero)).
  (** src/Minimiser.cpp:95: the value that a FitResult reports (src/FitResult.cpp:48), that is printed and scanned. *)
  Definition FCN (fcn : list R -> R) (v : list R) : R := fcn v.
End Terms.

(** *** The parameters during a fit *)
Notation par := (param R).
Definition values (ps : list par) : list R := map (mean R) ps.
(** The parameter at a position, m_parSet->at(k), is changed. *)
Definition modify (f : par -> par) (k : nat) (ps : list par) : res (list par) :=
  bind (of_opt (nth_error ps k)) (fun p => of_opt (set_at k (f p) ps)).
(** src/MinuitParameter.cpp:69-75 *)
Definition setResult (m e lo hi : R) (p : par) : par :=
  {| name := name R p; flag := flag R p; meanInit := meanInit R p; stepInit := stepInit R p; minInit := minInit R p;
     maxInit := maxInit R p; mean := m; errPos := hi; errNeg := lo; err := e; index := index R p |}.
(** src/Minimiser.cpp:87-89 *)
Fixpoint assign (mapping : list nat) (xx : list R) (ps : list par) : res (list par) :=
  match mapping, xx with
  | [], _ => Ok ps
  | k :: m, x :: xs => bind (modify (setCurrentFitVal R x) k ps) (assign m xs)
  | _ :: _, [] => UB
  end.
(** The oracle evaluates the function at these points. *)
Fixpoint visit (mapping : list nat) (trace : list (list R)) (ps : list par) : res (list par) :=
  match trace with [] => Ok ps | xx :: r => bind (assign mapping xx ps) (visit mapping r) end.
(** Its answer: the points visited, the best one, the errors. *)
Record answer := Answer { trace : list (list R); best : list R; errors : list R }.
Record interval := Interval { tried : list (list R); low : R; high : R }.
(** src/Minimiser.cpp:206-209 *)
Fixpoint results (mapping : list nat) (xs es : list R) (ps : list par) : res (list par) :=
  match mapping, xs, es with
  | [], _, _ => Ok ps
  | k :: m, x :: xs', e :: es' => bind (modify (setResult x e e e) k ps) (results m xs' es')
  | _, _, _ => UB
  end.
(** src/Minimiser.cpp:227-235 *)
Fixpoint run_minos (all mapping : list nat) (answers : list interval) (ps : list par) : res (list par) :=
  match mapping, answers with
  | [], _ => Ok ps
  | k :: m, a :: r =>
      bind (visit all (tried a) ps) (fun ps1 =>
      bind (modify (fun p => setResult (mean R p) (err R p) (low a) (high a) p) k ps1) (run_minos all m r))
  | _ :: _, [] => UB
  end.
(** src/Minimiser.cpp:188-235 *)
Definition doFit (mapping : list nat) (a : answer) (minos : option (list interval)) (ps : list par) : res (list par) :=
  bind (visit mapping (trace a) ps) (fun ps1 =>
  bind (results mapping (best a) (errors a) ps1) (fun ps2 =>
  match minos with None => Ok ps2 | Some l => run_minos mapping mapping l ps2 end)).
(** src/Minimiser.cpp:328-352 for the floating parameter at position [k]; [X]: the best point. *)
Definition rltb (a b : R) : bool := if Rlt_dec a b then true else false.
Definition zerob (a : R) : bool := if Req_EM_T a 0 then true else false.
Definition minos (mapping : list nat) (k : nat) (X : list R) (a : interval) (ps : list par) : res (list par) :=
  bind (of_opt (nth_error ps k)) (fun p =>
  let v0 := mean R p in
  let limits := negb (zerob (minInit R p)) || negb (zerob (maxInit R p)) in
  if limits && rltb (v0 - err R p) (minInit R p) then Ok ps
  else if limits && rltb (maxInit R p) (v0 + err R p) then Ok ps
  else
    bind (visit mapping (tried a) ps) (fun ps1 =>
    bind (modify (fun p => setResult v0 (err R p) (low a) (high a) p) k ps1) (fun ps2 => assign mapping X ps2))).

(** src/Minimiser.cpp:277-293; [offset]: the secret offset of a blind parameter, otherwise 0. *)
Section Scan.
  Variable fcn : list R -> R.
  Fixpoint scan_loop (fuel : nat) (k : nat) (offset sv max step : R) (ps : list par) (pts : list (R * R)) : res (list par * list (R * R)) :=
    if Rlt_dec sv max then
      match fuel with
      | O => OutOfFuel
      | S n => bind (modify (setCurrentFitVal R (sv - offset)) k ps) (fun ps1 => scan_loop n k offset (sv + step) max step ps1 (pts ++ [(sv, fcn (values ps1))]))
      end
    else Ok (ps, pts).
  Definition scan (fuel k : nat) (offset min max step : R) (ps : list par) : res (list par * list (R * R)) :=
    bind (of_opt (nth_error ps k)) (fun p =>
    bind (scan_loop fuel k offset min max step ps []) (fun r =>
    bind (modify (setCurrentFitVal R (mean R p)) k (fst r)) (fun ps' => Ok (ps', snd r)))).
  (** src/Minimiser.cpp:99-115: the numbers printed, [None] for a step of zero. *)
  Fixpoint gradientTest (mapping : list nat) (ps : list par) (out : list (option R)) : res (list par * list (option R)) :=
    match mapping with
    | [] => Ok (ps, out)
    | k :: m =>
        bind (of_opt (nth_error ps k)) (fun p =>
        bind (modify (setCurrentFitVal R (meanInit R p + stepInit R p)) k ps) (fun ps1 =>
        bind (modify (setCurrentFitVal R (meanInit R p - stepInit R p)) k ps1) (fun ps2 =>
        bind (modify (setCurrentFitVal R (mean R p)) k ps2) (fun ps3 =>
        gradientTest m ps3 (out ++ [if zerob (stepInit R p) then None else Some ((fcn (values ps1) - fcn (values ps2)) / (2 * stepInit R p))])))))
    end.
End Scan.
