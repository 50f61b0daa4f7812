(** Transcription of the reading, writing and printing of src/FitResult.cpp and of the printing of src/Minimiser.cpp and
    src/MinuitParameter.cpp. Text is a list of lines and a line the list of its blank-separated words: the formats put a
    blank between any two fields, and the reader splits on blanks. Parameter names are assumed free of blanks. *)
From Verif.Common Require Export Prelude.
From Verif.Enum Require Import Model.
From Verif.Utilities Require Import Model.
From Verif.Minuit Require Import Model.

Section FitResult.
  (** [double] with addition and the test for zero; [pr] prints a number ("%-12lf" or operator<<), [rd] is stod. *)
  Variables (D : Type) (add : D -> D -> D) (isZero : D -> bool) (pr : D -> str) (rd : str -> option D).
  Notation param := (param D).

  (** The parameter set is the list of its parameters; a name finds the first parameter of that name (Minuit/Load.v,
      first_found). *)
  Definition lookup (k : str) (ps : list param) : option param := List.find (fun p => str_eqb k (name D p)) ps.
  Definition has (sub s : str) : bool := match find0 sub s with Some _ => true | None => false end.

  (** to_string<Flag> *)
  Definition flag_str (f : Z) : str := enum_to_string (Z.to_nat f) flag_text.
  Definition blind_name (n : str) : str := n ++ S_ "_blind".

  (** src/FitResult.cpp:148-161: one parameter; [None] when it is skipped. Looking up a missing name gives the null
      pointer (src/MinuitParameterSet.cpp:100-107), which is dereferenced. *)
  Definition param_words (p : param) (shown : D) : list str :=
    [S_ "Parameter"; name D p; flag_str (flag D p); pr shown; pr (err D p); pr (errNeg D p); pr (errPos D p); pr (minInit D p); pr (maxInit D p)].
  Definition write_param (ps : list param) (zero : D) (p : param) : res (list (list str)) :=
    if has (S_ "_blind") (name D p) then Ok []
    else if isBlind D p then
      match lookup (blind_name (name D p)) ps with
      | None => UB
      | Some q => if isZero (mean D q) then Ok [] else Ok [param_words p (add (mean D p) (mean D q))]
      end
    else Ok [param_words p (add (mean D p) zero)].
  Fixpoint write_params (zero : D) (all ps : list param) : res (list (list str)) :=
    match ps with
    | [] => Ok []
    | p :: t => bind (write_param all zero p) (fun a => bind (write_params zero all t) (fun b => Ok (a ++ b)))
    end.

  (** A result: parameters, full covariance, quality (chi2, number of bins, of parameters, likelihood, status), fit
      fractions and observables. *)
  Record result := { params : list param; cov : list (list D); quality : D * D * D * D * D;
                     fractions : list (str * D * D); observables : list (str * D) }.

  (** src/FitResult.cpp:140-179. The loops run over the rows of the covariance, which are as many as the parameters
      (constructors at lines 46-71). Empty lines are left out: the reader skips them. *)
  Definition writeToFile (zero : D) (r : result) : res (list (list str)) :=
    bind (write_params zero (params r) (firstn (List.length (cov r)) (params r))) (fun head =>
    let '(a, b, c, d, e) := quality r in
    Ok (head
        ++ [[S_ "FitQuality"; pr a; pr b; pr c; pr d; pr e]]
        ++ map (fun '(n, v, s) => [S_ "FitFraction"; n; pr v; pr s]) (fractions r)
        ++ map (fun '(n, v) => [S_ "Observable"; n; pr v]) (observables r)
        ++ [[S_ "CovarianceMatrix"]]
        ++ map (map pr) (cov r)
        ++ [S_ "ParamsOrder" :: flat_map (fun p => [name D p; flag_str (flag D p)]) (firstn (List.length (cov r)) (params r));
            [S_ "End"; S_ "Log"]])).

  (** src/FitResult.cpp:75-78: stod throws when there is no number. *)
  Fixpoint to_doubles (ws : list str) : res (list D) :=
    match ws with
    | [] => Ok []
    | w :: t => match rd w with
                | None => Throw
                | Some d => bind (to_doubles t) (fun r => Ok (d :: r))
                end
    end.

  (** src/FitResult.cpp:79-89 *)
  Definition setResult (p : param) (m e en ep : D) : param :=
    {| name := name D p; flag := flag D p; meanInit := meanInit D p; stepInit := stepInit D p; minInit := minInit D p;
       maxInit := maxInit D p; mean := m; errPos := ep; errNeg := en; err := e; index := index D p |}.
  Variables (zero m9999 : D).
  Definition to_parameter (tokens : list str) : res (option param) :=
    if negb (Nat.eqb (List.length tokens) 9) then Ok None
    else bind (to_doubles (skipn 3 tokens)) (fun args =>
      bind (of_opt (nth_error tokens 1)) (fun n => bind (of_opt (nth_error tokens 2)) (fun f =>
      bind (of_opt (nth_error args 0)) (fun a0 => bind (of_opt (nth_error args 1)) (fun a1 =>
      bind (of_opt (nth_error args 2)) (fun a2 => bind (of_opt (nth_error args 3)) (fun a3 =>
      bind (of_opt (nth_error args 5)) (fun a5 => bind (of_opt (nth_error args 6)) (fun a6 =>
      Ok (Some (setResult (mkParam D zero m9999 n (parse_flag f) a0 a1 a5 a6) a0 a1 a2 a3))))))))))).

  (** src/FitResult.cpp:117-130 (a word that is no number leaves the result of the failed cast, here the old value). *)
  Definition setFitQuality (tokens : list str) (q : D * D * D * D * D) : D * D * D * D * D :=
    match tokens with
    | [_; a; b; c; d; e] =>
        match rd a, rd b, rd c, rd d, rd e with
        | Some a', Some b', Some c', Some d', Some e' => (a', b', c', d', e')
        | _, _, _, _, _ => q
        end
    | _ => q
    end.

  Fixpoint obs_set (k : str) (v : D) (m : list (str * D)) : list (str * D) :=
    match m with [] => [(k, v)] | (k', v') :: t => if str_eqb k k' then (k, v) :: t else (k', v') :: obs_set k v t end.

  (** src/FitResult.cpp:92-109: the function applied to each line. *)
  Record reader := { r_params : list param; r_quality : D * D * D * D * D; r_fractions : list (str * D * D);
                     r_observables : list (str * D); r_cov : list (list D); r_in : bool }.
  Definition in_cov (s : reader) (tokens : list str) : res reader :=
    if r_in s then bind (to_doubles tokens) (fun v =>
      Ok {| r_params := r_params s; r_quality := r_quality s; r_fractions := r_fractions s; r_observables := r_observables s;
            r_cov := r_cov s ++ [v]; r_in := true |})
    else Ok s.
  Definition read_line (tokens : list str) (s : reader) : res reader :=
    match tokens with
    | [] => UB
    | n :: _ =>
        if str_eqb n (S_ "Parameter") then
          bind (to_parameter tokens) (fun o =>
          let ps := match o with Some p => r_params s ++ [p] | None => r_params s end in
          in_cov {| r_params := ps; r_quality := r_quality s; r_fractions := r_fractions s; r_observables := r_observables s;
                    r_cov := r_cov s; r_in := r_in s |} tokens)
        else if str_eqb n (S_ "FitQuality") then
          in_cov {| r_params := r_params s; r_quality := setFitQuality tokens (r_quality s); r_fractions := r_fractions s;
                    r_observables := r_observables s; r_cov := r_cov s; r_in := r_in s |} tokens
        else if str_eqb n (S_ "FitFraction") then
          match tokens with
          | _ :: w :: v :: e :: _ => match rd v, rd e with
              | Some v', Some e' => in_cov {| r_params := r_params s; r_quality := r_quality s; r_fractions := r_fractions s ++ [(w, v', e')];
                    r_observables := r_observables s; r_cov := r_cov s; r_in := r_in s |} tokens
              | _, _ => Throw end
          | _ => UB
          end
        else if str_eqb n (S_ "Observable") then
          match tokens with
          | _ :: w :: v :: _ => match rd v with
              | Some v' => in_cov {| r_params := r_params s; r_quality := r_quality s; r_fractions := r_fractions s;
                    r_observables := obs_set w v' (r_observables s); r_cov := r_cov s; r_in := r_in s |} tokens
              | _ => Throw end
          | _ => UB
          end
        else if str_eqb n (S_ "ParamsOrder") then
          Ok {| r_params := r_params s; r_quality := r_quality s; r_fractions := r_fractions s; r_observables := r_observables s;
                r_cov := r_cov s; r_in := false |}
        else if str_eqb n (S_ "CovarianceMatrix") then
          Ok {| r_params := r_params s; r_quality := r_quality s; r_fractions := r_fractions s; r_observables := r_observables s;
                r_cov := r_cov s; r_in := true |}
        else in_cov s tokens
    end.
  Fixpoint read_lines (lines : list (list str)) (s : reader) : res reader :=
    match lines with [] => Ok s | l :: t => bind (read_line l s) (read_lines t) end.

  (** src/FitResult.cpp:110-113: element (i,j) for i, j below the number of parameters read. *)
  Fixpoint rows (n : nat) (lines : list (list D)) : res (list (list D)) :=
    match n with
    | 0 => Ok []
    | S n' => match lines with
              | [] => UB
              | l :: t => bind (rows n' t) (fun r => Ok (l :: r))
              end
    end.
  Fixpoint cut (n : nat) (ls : list (list D)) : res (list (list D)) :=
    match ls with
    | [] => Ok []
    | l :: t => if Nat.ltb (List.length l) n then UB else bind (cut n t) (fun r => Ok (firstn n l :: r))
    end.
  Definition readFile (lines : list (list str)) : res result :=
    bind (read_lines lines {| r_params := []; r_quality := (zero, zero, zero, zero, zero); r_fractions := []; r_observables := []; r_cov := []; r_in := false |})
    (fun s =>
    let n := List.length (r_params s) in
    bind (rows n (r_cov s)) (fun ls => bind (cut n ls) (fun c =>
    Ok {| params := r_params s; cov := c; quality := r_quality s; fractions := r_fractions s; observables := r_observables s |}))).

  (** src/FitResult.cpp:322-326 *)
  Definition print_param (p : param) : list str :=
    [flag_str (flag D p); pr (mean D p); pr (err D p)] ++
    (if (negb (isZero (minInit D p)) && negb (isZero (maxInit D p)))%bool then [pr (minInit D p); pr (maxInit D p)] else []).

  (** src/FitResult.cpp:327-344; the result is the line printed, if any, and the keys. *)
  Definition try_add_real (ps : list param) (key : str) : option (list str * list str) :=
    match lookup key ps with None => None | Some p => Some (name D p :: print_param p, [key]) end.
  Definition try_add_complex (ps : list param) (key : str) : option (list str * list str) :=
    match lookup (key ++ S_ "_Re") ps, lookup (key ++ S_ "_Im") ps with
    | Some a, Some b => Some (key :: print_param a ++ print_param b, [key ++ S_ "_Re"; key ++ S_ "_Im"])
    | _, _ => None
    end.

  (** src/FitResult.cpp:363-372; [fuel] is for replaceAll. *)
  Definition option_line_of (fuel : nat) (ps : list param) (n : str) : res (option (list str * list str)) :=
    let im := (fun _ : unit =>
      if has (S_ "_Im") n then
        bind (replaceAll fuel n (S_ "_Im") (S_ "_Re")) (fun n' =>
        match lookup n' ps with
        | Some _ => bind (replaceAll fuel n (S_ "_Re") []) (fun k => Ok (try_add_complex ps k))
        | None => Ok (try_add_real ps n)
        end)
      else Ok (try_add_real ps n)) in
    if has (S_ "_Re") n then
      bind (replaceAll fuel n (S_ "_Re") (S_ "_Im")) (fun n' =>
      match lookup n' ps with
      | Some _ => bind (replaceAll fuel n (S_ "_Re") []) (fun k => Ok (try_add_complex ps k))
      | None => im tt
      end)
    else im tt.
  Fixpoint option_lines (fuel : nat) (all ps : list param) (keys : list str) : res (list (list str)) :=
    match ps with
    | [] => Ok []
    | p :: t =>
        if existsb (str_eqb (name D p)) keys then option_lines fuel all t keys
        else bind (option_line_of fuel all (name D p)) (fun o =>
             match o with
             | None => option_lines fuel all t keys
             | Some (l, ks) => bind (option_lines fuel all t (keys ++ ks)) (fun r => Ok (l :: r))
             end)
    end.
  Definition writeOptions (fuel : nat) (ps : list param) : res (list (list str)) := option_lines fuel ps ps [].

  (** src/MinuitParameter.cpp:93-113 *)
  Definition print_one (p : param) : list str :=
    [name D p; S_ "="] ++ (if isBlind D p then [S_ "BLIND"] else [pr (mean D p)]) ++ [S_ "+-"; pr (stepInit D p)] ++
    (if (negb (isZero (minInit D p)) || negb (isZero (maxInit D p)))%bool then [pr (minInit D p); pr (maxInit D p)] else []) ++
    [flag_str (flag D p)].

  (** src/Minimiser.cpp:247-272 (the table after a fit). *)
  Definition fit_row (minos : bool) (p : param) (m : D) : list (list str) :=
    if (isFree D p || Z.eqb (flag D p) Fix || isBlind D p)%bool then
      [[name D p; flag_str (flag D p); pr m; pr (if isFree D p then err D p else zero)] ++
       (if minos then [pr (if isFree D p then errPos D p else zero); pr (if isFree D p then errNeg D p else zero)] else [])]
    else [].
  Fixpoint fit_table (minos : bool) (all ps : list param) : res (list (list str)) :=
    match ps with
    | [] => Ok []
    | p :: t =>
        bind (if isBlind D p then
                match lookup (blind_name (name D p)) all with
                | None => UB
                | Some q => if isZero (mean D q) then Ok [] else Ok (fit_row minos p (add (mean D p) (mean D q)))
                end
              else Ok (fit_row minos p (mean D p))) (fun a =>
        bind (fit_table minos all t) (fun b => Ok (a ++ b)))
    end.

  (** src/Minimiser.cpp:359-366: what minos prints for a blind parameter. *)
  Definition minos_line (all : list param) (p : param) : res (list str) :=
    if isBlind D p then
      match lookup (blind_name (name D p)) all with
      | None => UB
      | Some q => Ok [name D p; S_ "(BLIND)"; pr (add (mean D p) (mean D q)); pr (errNeg D p); pr (errPos D p)]
      end
    else Ok [name D p; pr (mean D p); pr (errPos D p); pr (errNeg D p)].

  (** src/FitResult.cpp:54-57 and 294: covMapping[name] = position (a later parameter of the same name overwrites);
      covariance by names. [at] throws for an unknown name. *)
  Fixpoint cov_pos (k : str) (ps : list param) : option nat :=
    match ps with
    | [] => None
    | p :: t => match cov_pos k t with
                | Some i => Some (S i)
                | None => if str_eqb k (name D p) then Some 0 else None
                end
    end.
  Definition cov_by_name (F : nat * nat -> D) (ps : list param) (x y : str) : res D :=
    match cov_pos x ps, cov_pos y ps with Some i, Some j => Ok (F (i, j)) | _, _ => Throw end.

  (** src/FitResult.cpp:233-261: the floating parameters and the reduced covariance; [big] is err() > 1e-6. *)
  Variable big : D -> bool.
  Definition selected (extended : bool) (p : param) : bool := ((isFree D p || isBlind D p || extended) && big (err D p))%bool.
  Definition floating (extended : bool) (ps : list param) : list param := filter (selected extended) ps.
  Fixpoint floating_indices (extended : bool) (i : nat) (ps : list param) : list nat :=
    match ps with [] => [] | p :: t => if selected extended p then i :: floating_indices extended (S i) t else floating_indices extended (S i) t end.
  Definition reduced (F : nat * nat -> D) (idx : list nat) (i j : nat) : res D :=
    match nth_error idx i, nth_error idx j with Some a, Some b => Ok (F (a, b)) | _, _ => UB end.
End FitResult.
