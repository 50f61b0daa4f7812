(** Transcription of src/OptionsParser.cpp and of processFile (AmpGen/Utilities.h:114-126). *)
From Verif.Common Require Export Prelude.

(** [std::isblank] in the "C" locale: blank and tab. *)
Definition isblank (c : ascii) : bool := Ascii.eqb c " " || Ascii.eqb c "009".

(** src/OptionsParser.cpp:139-154. [cur] is the text between [prev] and [it] (meaningful when [prevBlank] is
    false); the flag [ignore] of line 136 is never set and is left out. *)
Fixpoint scan (cur : str) (prevBlank insideQuotes : bool) (depth : Z) (s : str) : list str * Z :=
  match s with
  | [] => ([], depth)
  | c :: t =>
      if negb insideQuotes && Ascii.eqb c "#" then ([], depth)
      else
        let sep := (negb insideQuotes && isblank c) || Ascii.eqb c """" in
        let emit := if sep && negb prevBlank then [cur] else [] in
        let cur' := if sep then cur else if prevBlank then [c] else cur ++ [c] in
        let quotes' := if Ascii.eqb c """" then negb insideQuotes else insideQuotes in
        let depth' := if Ascii.eqb c "{" && negb quotes' then (depth + 1)%Z
                      else if Ascii.eqb c "}" && negb quotes' then (depth - 1)%Z else depth in
        let r := scan cur' sep quotes' depth' t in
        (emit ++ fst r, snd r)
  end.

(** src/OptionsParser.cpp:127-162. The second component is [braceDepth] after the call. [int] does not wrap here. *)
Definition makeParsedStrings (line : str) (depth : Z) : list str * Z :=
  match line with
  | [] => ([], depth)
  | _ => scan [] true false depth ([" "%char] ++ line ++ [" "%char])
  end.

(** src/OptionsParser.cpp:33-41 *)
Definition ignoreThisLine (line : str) : bool :=
  match line with
  | [] => true
  | c :: _ => Ascii.eqb c "*" || Ascii.eqb c "#"
  end.

(** src/OptionsParser.cpp:40-42 of the header: the parsed lines by key and the keys in order of arrival;
    [calls] records the lines handed to the ParticleProperties... handlers (lines 18-20), whose effect is on
    another object. *)
Record parser := { parsed : list (str * list str); ordered : list str; calls : list (list str) }.
Definition empty_parser : parser := {| parsed := []; ordered := []; calls := [] |}.

(** [std::map] look-up and assignment on an association list. *)
Fixpoint map_find (k : str) (m : list (str * list str)) : option (list str) :=
  match m with
  | [] => None
  | (k', v) :: t => if str_eqb k k' then Some v else map_find k t
  end.
Fixpoint map_set (k : str) (v : list str) (m : list (str * list str)) : list (str * list str) :=
  match m with
  | [] => [(k, v)]
  | (k', v') :: t => if str_eqb k k' then (k, v) :: t else (k', v') :: map_set k v t
  end.

(** src/OptionsParser.cpp:17-20 *)
Definition is_particle_keyword (k : str) : bool :=
  str_eqb k (S_ "ParticleProperties") || str_eqb k (S_ "ParticlePropertiesList::Alias") ||
  str_eqb k (S_ "ParticlePropertiesList::Import").

(** src/OptionsParser.cpp:116-125; [imp] is the call at line 17. Reading [tokens[0]] of an empty vector is
    undefined behaviour. *)
Definition addArg (imp : str -> parser -> res parser) (tokens : list str) (p : parser) : res parser :=
  match tokens with
  | [] => UB
  | key :: _ =>
      if str_eqb key (S_ "Import") then
        match tokens with
        | [_; f] => imp f p
        | _ => Ok p
        end
      else if is_particle_keyword key then
        Ok {| parsed := parsed p; ordered := ordered p; calls := calls p ++ [tokens] |}
      else Ok {| parsed := map_set key tokens (parsed p); ordered := ordered p ++ [key]; calls := calls p |}
  end.

(** src/OptionsParser.cpp:110-114 *)
Definition addArg_string (imp : str -> parser -> res parser) (arg : str) (p : parser) : res parser :=
  addArg imp (fst (makeParsedStrings arg 0)) p.

(** src/OptionsParser.cpp:43-48. [find(key)->second] on a missing key would be undefined behaviour. *)
Fixpoint lookup_all (m : list (str * list str)) (keys : list str) : res (list (list str)) :=
  match keys with
  | [] => Ok []
  | k :: ks => match map_find k m with
               | None => UB
               | Some v => bind (lookup_all m ks) (fun r => Ok (v :: r))
               end
  end.
Definition getInputOrdered (p : parser) : res (list (list str)) := lookup_all (parsed p) (ordered p).

(** src/OptionsParser.cpp:103 *)
Definition isCurlyBrace (t : str) : bool := str_eqb t (S_ "{") || str_eqb t (S_ "}").

(** src/OptionsParser.cpp:93-107, the function applied to each line; [add] is the call at line 105. *)
Fixpoint lines_loop {A} (add : list str -> A -> res A) (lines : list str) (cur : list str) (depth : Z) (a : A) : res A :=
  match lines with
  | [] => Ok a
  | l :: ls =>
      if ignoreThisLine l then lines_loop add ls cur depth a
      else
        let '(tokens, d) := makeParsedStrings l depth in
        let cur' := cur ++ tokens in
        match tokens with
        | [] => lines_loop add ls cur' d a
        | _ => if Z.eqb d 0
               then bind (add (filter (fun t => negb (isCurlyBrace t)) cur') a) (fun a' => lines_loop add ls [] d a')
               else lines_loop add ls cur' d a
        end
  end.

(** AmpGen/Utilities.h:114-126 with the default last argument: the lines of a file (newline-terminated or not),
    carriage returns removed, empty lines and lines starting with '#' skipped. *)
Fixpoint raw_lines (acc s : str) : list str :=
  match s with
  | [] => [acc]
  | c :: t => if Ascii.eqb c "010" then acc :: raw_lines [] t else raw_lines (acc ++ [c]) t
  end.
Definition file_lines (content : str) : list str :=
  filter (fun l => match l with [] => false | c :: _ => negb (Ascii.eqb c "#") end)
    (map (filter (fun c => negb (Ascii.eqb c "013"))) (raw_lines [] content)).

(** src/OptionsParser.cpp:84-108. [fs] gives the content of each readable file; [expand] is expandGlobals
    (src/Utilities.cpp:335, environment variables), applied at line 17. [fuel] bounds the nesting of imports. *)
Fixpoint import (fs : str -> option str) (expand : str -> str) (fuel : nat) (name : str) (p : parser) : res parser :=
  match fuel with
  | 0 => OutOfFuel
  | S f =>
      match fs name with
      | None => Ok p
      | Some content => lines_loop (addArg (fun n q => import fs expand f (expand n) q)) (file_lines content) [] 0 p
      end
  end.
