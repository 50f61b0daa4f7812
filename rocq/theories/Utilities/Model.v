(** Transcription of the string and permutation helpers of src/Utilities.cpp. *)
From Verif.Common Require Export Prelude.
From Coq Require Import NArith.

(** [std::string::find] of a prefix at the current position. Library semantics, used at
    src/Utilities.cpp:88,117,219,227,234. *)
Fixpoint prefixb (p s : str) : bool :=
  match p, s with
  | [], _ => true
  | _ :: _, [] => false
  | c :: p', d :: s' => Ascii.eqb c d && prefixb p' s'
  end.

(** [s.find(p)]: first position at which [p] occurs, [None] for npos. *)
Fixpoint find0 (p s : str) : option nat :=
  if prefixb p s then Some 0
  else match s with
       | [] => None
       | _ :: t => option_map S (find0 p t)
       end.

(** [s.find(p, start)]. *)
Definition find_from (p s : str) (start : nat) : option nat :=
  if Nat.ltb (List.length s) start then None
  else option_map (Nat.add start) (find0 p (skipn start s)).

(** src/Utilities.cpp:31 — the four items dropped when [ignoreWhitespace] is set. *)
Definition is_blank_item (item : str) : bool :=
  str_eqb item (S_ " ") || str_eqb item [] || str_eqb item ["010"%char] || str_eqb item ["009"%char].

(** src/Utilities.cpp:29-30 — the items delivered by repeated [std::getline] up to [delim];
    a call that extracts nothing before the end of the stream fails and ends the loop. *)
Fixpoint getlines (delim : ascii) (acc s : str) : list str :=
  match s with
  | [] => match acc with [] => [] | _ => [acc] end
  | c :: t => if Ascii.eqb c delim then acc :: getlines delim [] t
              else getlines delim (acc ++ [c]) t
  end.

(** src/Utilities.cpp:25-34 *)
Definition split (s : str) (delim : ascii) (ignoreWhitespace : bool) : list str :=
  filter (fun item => negb ignoreWhitespace || negb (is_blank_item item)) (getlines delim [] s).

(** src/Utilities.cpp:44-52 — the inner loop over the delimiters (first match decides). *)
Definition mem_char (c : ascii) (l : list ascii) : bool := existsb (Ascii.eqb c) l.

(** src/Utilities.cpp:36-56 *)
Fixpoint split_delims_loop (delims : list ascii) (keep : bool) (tmp s : str) : list str :=
  match s with
  | [] => match tmp with [] => [] | _ => [tmp] end
  | c :: t =>
      if mem_char c delims then
        (match tmp with [] => [] | _ => [tmp] end)
        ++ (if keep then [[c]] else [])
        ++ split_delims_loop delims keep [] t
      else split_delims_loop delims keep (tmp ++ [c]) t
  end.

Definition split_delims (s : str) (delims : list ascii) (keep : bool) : list str :=
  split_delims_loop delims keep [] s.

(** src/Utilities.cpp:74-81 *)
Definition swapChars (s : str) (a b : ascii) : str :=
  map (fun c => if Ascii.eqb c a then b else if Ascii.eqb c b then a else c) s.

(** src/Utilities.cpp:83-95 — all (possibly overlapping) occurrences; the do-while restarts at
    pos+1, i.e. every position is tried once. The last find of an empty pattern at the end of
    the string is included, as in C++. *)
Fixpoint findAll_at (pos : nat) (p s : str) : list nat :=
  (if prefixb p s then [pos] else []) ++
  match s with [] => [] | _ :: t => findAll_at (S pos) p t end.
Definition findAll (s p : str) : list nat := findAll_at 0 p s.

(** src/Utilities.cpp:116-122 — the loop; [fuel] bounds the number of iterations. Note line 120:
    the search restarts [toReplace.length()] after the match whatever was inserted. *)
Fixpoint replace_loop (fuel : nat) (old new output : str) (start : nat) : res str :=
  match fuel with
  | 0 => OutOfFuel
  | S f =>
      match find_from old output start with
      | None => Ok output
      | Some pos =>
          replace_loop f old new
            (firstn pos output ++ new ++ skipn (pos + List.length old) output)
            (pos + List.length old)
      end
  end.

(** src/Utilities.cpp:107-124 *)
Definition replaceAll (fuel : nat) (input old new : str) : res str :=
  if str_eqb old new then Ok input else replace_loop fuel old new input 0.

(** src/Utilities.cpp:126-131 *)
Fixpoint replaceAll_rules (fuel : nat) (input : str) (rules : list (str * str)) : res str :=
  match rules with
  | [] => Ok input
  | (o, n) :: rs => bind (replaceAll fuel input o n) (fun s => replaceAll_rules fuel s rs)
  end.

(** src/Utilities.cpp:219 — position of the wildcard character. *)
Fixpoint find_char (w : ascii) (s : str) : option nat :=
  match s with
  | [] => None
  | c :: t => if Ascii.eqb c w then Some 0 else option_map S (find_char w t)
  end.

(** src/Utilities.cpp:233-234 — [pattern2.substr(0, pos2)], the whole of it when npos. *)
Definition upto (pos : option nat) (s : str) : str :=
  match pos with None => s | Some n => firstn n s end.

(** src/Utilities.cpp:216-239. The recursion is on [pattern2], strictly shorter than the pattern;
    [fuel] = the length of the pattern suffices (proved). The inner call on [pattern1] (line 231)
    is the base case of lines 220/226, written out. *)
Fixpoint matches_wildcard_fuel (fuel : nat) (input pat : str) (w : ascii) : res bool :=
  match fuel with
  | 0 => OutOfFuel
  | S f =>
      if str_eqb pat [w] then Ok true
      else match find_char w pat with
           | None => Ok (str_eqb input pat)
           | Some pos =>
               let starts p := match find0 p input with Some 0 => true | _ => false end in
               if Nat.eqb pos (List.length pat - 1) then
                 Ok (starts (firstn (List.length pat - 1) pat))
               else
                 let pattern1 := firstn (pos + 1) pat in
                 let pattern2 := skipn (pos + 1) pat in
                 let match1 :=
                   if str_eqb pattern1 [w] then true
                   else starts (firstn (List.length pattern1 - 1) pattern1) in
                 if match1 then
                   match find0 (upto (find_char w pattern2) pattern2) input with
                   | None => Ok false
                   | Some p => matches_wildcard_fuel f (skipn p input) pattern2 w
                   end
                 else Ok false
           end
  end.
Definition stringMatchesWildcard (input pat : str) (w : ascii) : res bool :=
  matches_wildcard_fuel (S (List.length pat)) input pat w.

(** src/Utilities.cpp:241-249, with [unsigned int] 32 bits and plain [char] signed: the
    promotion of a byte >= 128 sign-extends. *)
Definition char_as_unsigned (c : ascii) : N :=
  let b := N_of_ascii c in
  if (b <? 128)%N then b else (b + (2 ^ 32 - 256))%N.
Definition FNV1a_step (hash : N) (c : ascii) : N :=
  ((N.lxor hash (char_as_unsigned c) * 16777619) mod 2 ^ 32)%N.
Definition FNV1a_hash (s : str) : N := fold_left FNV1a_step s 2166136261%N.

(** C++ [std::isspace] in the "C" locale, used at src/Utilities.cpp:322,331. *)
Definition isspace (c : ascii) : bool :=
  let n := nat_of_ascii c in (Nat.leb 9 n && Nat.leb n 13) || Nat.eqb n 32.

(** src/Utilities.cpp:329-333 *)
Fixpoint ltrim (s : str) : str :=
  match s with
  | [] => []
  | c :: t => if isspace c then ltrim t else s
  end.
(** src/Utilities.cpp:320-324 — erase from one past the last non-space to the end. *)
Definition rtrim (s : str) : str := rev (ltrim (rev s)).
(** src/Utilities.cpp:327 *)
Definition trim (s : str) : str := ltrim (rtrim s).

(** src/Utilities.cpp:199-201 — one row of the table. [prev] is row i-1, [left] is d[i][j-1],
    the result is d[i][j], d[i][j+1], ... *)
Fixpoint ed_row (c : ascii) (s2 : str) (prev : list nat) (left : nat) : list nat :=
  match s2, prev with
  | d :: s2', p0 :: ((p1 :: _) as prev') =>
      let v := Nat.min (p1 + 1) (Nat.min (left + 1) (p0 + (if Ascii.eqb c d then 0 else 1))) in
      v :: ed_row c s2' prev' v
  | _, _ => []
  end.

(** src/Utilities.cpp:199 — rows 1..len1; [i] is the row about to be filled, whose first entry
    is d[i][0] = i (line 196). *)
Fixpoint ed_rows (s1 s2 : str) (i : nat) (prev : list nat) : list nat :=
  match s1 with
  | [] => prev
  | c :: s1' => ed_rows s1' s2 (S i) (i :: ed_row c s2 prev i)
  end.

(** src/Utilities.cpp:190-203. Row 0 is 0..len2 (line 197). Only the previous row of the
    two-dimensional table is kept (the others are never read again); [unsigned] wrap of the
    lengths is ignored. *)
Definition editDistance (s1 s2 : str) : nat :=
  last (ed_rows s1 s2 1 (seq 0 (S (List.length s2)))) 0.

(** src/Utilities.cpp:493-495 — [std::sort] of the pairs (value, position), lexicographic order. The pairs are
    distinct, so the sorted sequence is unique and any sorting algorithm gives it. *)
Definition pair_leb (p q : nat * nat) : bool :=
  Nat.ltb (fst p) (fst q) || (Nat.eqb (fst p) (fst q) && Nat.leb (snd p) (snd q)).
Fixpoint insert_pair (p : nat * nat) (l : list (nat * nat)) : list (nat * nat) :=
  match l with
  | [] => [p]
  | q :: t => if pair_leb p q then p :: l else q :: insert_pair p t
  end.
Definition sort_pairs (l : list (nat * nat)) : list (nat * nat) := fold_right insert_pair [] l.
Definition arrPos (indices : list nat) : list nat :=
  map snd (sort_pairs (combine indices (seq 0 (List.length indices)))).

(** Write to a vector element. *)
Fixpoint set_nth {A} (n : nat) (x : A) (l : list A) : list A :=
  match l, n with
  | [], _ => []
  | _ :: t, 0 => x :: t
  | y :: t, S m => y :: set_nth m x t
  end.

(** src/Utilities.cpp:504-509 — the while loop; [fuel] bounds the iterations ([OutOfFuel] excluded by proof). *)
Fixpoint cycle_walk (fuel : nat) (pos : list nat) (visited : list bool) (j size : nat) : res (list bool * nat) :=
  match nth_error visited j, nth_error pos j with
  | Some true, _ => Ok (visited, size)
  | Some false, Some next =>
      match fuel with
      | 0 => OutOfFuel
      | S f => cycle_walk f pos (set_nth j true visited) next (S size)
      end
  | _, _ => UB
  end.

(** src/Utilities.cpp:499-514. Reading past the end of [exchangeParities] is undefined behaviour; the product of
    [int]s is unbounded here (the callers pass only +-1). *)
Fixpoint swaps_loop (n : nat) (pos : list nat) (par : list Z) (is : list nat)
  (visited : list bool) (ans : nat) (net : Z) : res (nat * Z) :=
  match is with
  | [] => Ok (ans, net)
  | i :: is' =>
      match nth_error visited i, nth_error pos i with
      | Some v, Some p =>
          if v || Nat.eqb p i then swaps_loop n pos par is' visited ans net
          else bind (cycle_walk n pos visited i 0) (fun '(visited', size) =>
               if Nat.ltb 0 size then
                 match nth_error par i with
                 | Some e => swaps_loop n pos par is' visited' (ans + (size - 1)) (net * e)%Z
                 | None => UB
                 end
               else swaps_loop n pos par is' visited' ans net)
      | _, _ => UB
      end
  end.

(** src/Utilities.cpp:491-516 *)
Definition minSwaps (indices : list nat) (par : list Z) : res (nat * Z) :=
  let n := List.length indices in
  swaps_loop n (arrPos indices) par (seq 0 n) (repeat false n) 0 1%Z.
