(** Decay descriptors: src/Utilities.cpp:137-178 (getItems), src/Particle.cpp:77-121 (reading), 156-231 (modifiers),
    282-323 (printing), 124-154 (isValidDecayDescriptor). *)
From Verif.Common Require Export Prelude.
From Verif.Utilities Require Import Model.

(** ** getItems, for one-character brackets and separator (all its uses) *)

(** src/Utilities.cpp:97-105: the map from positions to brackets, in order; [true] for the opening one. *)
Fixpoint braces (o c : ascii) (k : nat) (s : str) : list (nat * bool) :=
  match s with
  | [] => []
  | a :: t => (if Ascii.eqb a o then [(k, true)] else if Ascii.eqb a c then [(k, false)] else []) ++ braces o c (S k) t
  end.
Fixpoint positions (x : ascii) (k : nat) (s : str) : list nat :=
  match s with [] => [] | a :: t => (if Ascii.eqb a x then [k] else []) ++ positions x (S k) t end.

(** src/Utilities.cpp:153-161: from an opening bracket to the position at which the count is zero again. *)
Fixpoint closing (diff : Z) (l : list (nat * bool)) : option nat :=
  match l with
  | [] => None
  | (p, b) :: r => let d := (diff + if b then 1 else -1)%Z in if Z.eqb d 0 then Some p else closing d r
  end.
Fixpoint matched (l : list (nat * bool)) : list (nat * nat) :=
  match l with
  | [] => []
  | (p, true) :: r => match closing 1 r with Some q => [(p, q)] | None => [] end ++ matched r
  | (_, false) :: r => matched r
  end.

(** std::string::substr: a position beyond the end throws; [last < pos] makes the length wrap and takes the rest. *)
Definition substr_to (s : str) (pos last : nat) : res str :=
  if Nat.ltb (List.length s) pos then Throw
  else if Nat.ltb last pos then Ok (skipn pos s) else Ok (firstn (last - pos) (skipn pos s)).

Definition inside (m : list (nat * nat)) (p : nat) : bool := existsb (fun q => Nat.ltb (fst q) p && Nat.ltb p (snd q)) m.
(** src/Utilities.cpp:166-176 *)
Fixpoint cut (s : str) (m : list (nat * nat)) (last : nat) (commas : list nat) (begin : nat) : res (list str) :=
  match commas with
  | [] => bind (substr_to s begin last) (fun x => Ok [x])
  | p :: r => if inside m p then cut s m last r begin
              else bind (substr_to s begin p) (fun x => bind (cut s m last r (p + 1)) (fun l => Ok (x :: l)))
  end.

(** src/Utilities.cpp:137-178; dereferencing begin() of an empty matched_braces is undefined. *)
Definition getItems (o c sep : ascii) (s : str) : res (list str) :=
  let b := braces o c 0 s in
  if Nat.odd (List.length b) then Ok []
  else match b with
       | [] => Ok [s]
       | (first, _) :: _ =>
           match matched b with
           | [] => UB
           | (p, q) :: m => bind (cut s m q (positions sep 0 s) (p + 1)) (fun l => Ok (firstn first s :: l))
           end
       end.

(** ** Modifiers *)

Record nstate := NState { orbital : Z; minL : Z; conf : Z; lineshape : str; usesDefault : bool; vertexName : str; modifiers : list str }.

(** src/Lineshapes.cpp:96-104; [shapes] are the keys registered with the factory. *)
Definition isLineshape (shapes : list str) (s : str) : bool := existsb (str_eqb (upto (find0 (S_ ".") s) s)) shapes.

Definition orbitals : str := S_ "SPDFGHI".
(** src/Particle.cpp:164-182, one character. lexical_cast<unsigned int> (Utilities.cpp:436-442) accepts the digits and
    the empty C string; [char] is signed. *)
Definition char_value (c : ascii) : Z := let n := Z.of_nat (nat_of_ascii c) in if Z.ltb n 128 then n else (n - 256)%Z.
Definition parse_char (c : ascii) (st : nstate) : nstate :=
  match find_char c orbitals with
  | Some i => NState (Z.of_nat i) (minL st) (conf st) (lineshape st) (usesDefault st) (vertexName st) (modifiers st)
  | None =>
      let n := Z.of_nat (nat_of_ascii c) in
      let v := if Z.eqb n 0 then 0%Z else if Z.leb 48 n && Z.leb n 57 then (n - 48)%Z else Z.modulo (10 + char_value c) (2 ^ 32) in
      NState (orbital st) (minL st) v (lineshape st) (usesDefault st) (vertexName st) (modifiers st)
  end.
(** src/Particle.cpp:156-188. The two halves of a two-character modifier (185-186) are themselves looked up as
    lineshapes; no lineshape has one character, but [shapes] is arbitrary here. *)
Definition set_lineshape (s : str) (st : nstate) : nstate := NState (orbital st) (minL st) (conf st) s (usesDefault st) (vertexName st) (modifiers st).
Definition parse_one (shapes : list str) (c : ascii) (st : nstate) : nstate :=
  if isLineshape shapes [c] then set_lineshape [c] st else parse_char c st.
Definition parseModifier (shapes : list str) (m : str) (st : nstate) : nstate :=
  let other :=
    if isLineshape shapes m then set_lineshape m st
    else match m with
         | [c] => parse_char c st
         | [c; d] => parse_one shapes d (parse_one shapes c st)
         | _ => st
         end in
  match split m "=" true with
  | [k; v] => if str_eqb k (S_ "vertex") then NState (orbital st) (minL st) (conf st) (lineshape st) (usesDefault st) v (modifiers st) else other
  | _ => other
  end.

(** src/Particle.cpp:90-93 with the defaults of AmpGen/Particle.h:297-309 *)
Definition read_modifiers (shapes : list str) (ms : list str) : nstate :=
  fold_left (fun st m => parseModifier shapes m st) ms (NState 0 0 0 (S_ "BW") false [] ms).

(** src/Particle.cpp:194-231, the part that concerns the modifiers. [narrow]: "NonRes" is in the name or the width is
    below the threshold; [photon]; [extra]: Particle::DefaultModifier; [l]: the least orbital angular momentum (C54). *)
Definition pdgLookup (extra : str) (narrow photon : bool) (l : Z) (st : nstate) : nstate :=
  let default := str_eqb (lineshape st) (S_ "BW") || usesDefault st in
  let shape := if default then (if photon then S_ "Photon" else if narrow then S_ "FormFactor" else lineshape st) else lineshape st in
  let shape := match extra with [] => shape | _ => match find0 (S_ ".") shape with Some _ => shape | None => shape ++ S_ "." ++ extra end end in
  NState (if Z.eqb (orbital st) 0 then l else orbital st) l (conf st) shape default (vertexName st) (modifiers st).

(** src/Particle.cpp:282-292; the array of letters has seven entries. *)
Definition orbitalString (st : nstate) : res str :=
  match vertexName st with
  | _ :: _ => Ok (vertexName st)
  | [] =>
      if Z.ltb (orbital st) 0 then UB else
      bind (of_opt (nth_error orbitals (Z.to_nat (orbital st)))) (fun c =>
      Ok (c :: if Z.eqb (conf st) 0 then [] else if Z.ltb (conf st) 10 then [ascii_of_nat (48 + Z.to_nat (conf st))]
               else [ascii_of_nat (Z.to_nat (Z.modulo (conf st - 10) 256))]))
  end.

(** src/Particle.cpp:299-312. The modifiers appended, and the text. An empty text appended to "[" leaves it, so the
    next one is appended without ";". *)
Definition append (mod_ x : str) : str := if str_eqb mod_ (S_ "[") then mod_ ++ x else mod_ ++ S_ ";" ++ x.
Definition printed (st : nstate) : res (list str) :=
  bind (if negb (Z.eqb (orbital st) (minL st)) || negb (Z.eqb (conf st) 0) then bind (orbitalString st) (fun o => Ok [o]) else Ok []) (fun l1 =>
  let l2 := if usesDefault st then [] else [lineshape st] in
  let l3 := filter (fun m => existsb (str_eqb m) (modifiers st)) [S_ "BgSpin0"; S_ "Inco"; S_ "NoSym"] in
  let l4 := filter (fun m => match find0 (S_ "=") m with Some _ => true | None => false end) (modifiers st) in
  Ok (l1 ++ l2 ++ l3 ++ l4)).
Definition modifierString (st : nstate) : res str :=
  bind (printed st) (fun l =>
  let t := fold_left append l (S_ "[") ++ S_ "]" in
  Ok (if str_eqb t (S_ "[]") then [] else t)).

(** ** Particles *)
Inductive particle := Part (name : str) (st : nstate) (daughters : list particle).
Inductive names := Names (n : str) (ds : list names).
Fixpoint skeleton (a : particle) : names := let '(Part n _ ds) := a in Names n (map skeleton ds).

(** What is looked up in the particle table and in the options: whether a name is known, whether its default
    lineshape is the narrow one or the photon's, and the least L of a decay, which depends on the names in the tree. *)
Record world := World { shapes : list str; extra : str; known : str -> bool; narrow : str -> bool; photon : str -> bool; leastL : names -> Z }.

(** src/Particle.cpp:77-121 without the final-state indices and without sorting (C53). [Ok None]: the particle is
    marked as not good (84-89). A daughter or a name that failed has no properties; using them (704, 676) is undefined. *)
Fixpoint all_good (l : list (res (option particle))) : res (list particle) :=
  match l with
  | [] => Ok []
  | r :: t => bind r (fun o => match o with None => UB | Some p => bind (all_good t) (fun ps => Ok (p :: ps)) end)
  end.
Fixpoint build (w : world) (fuel : nat) (s : str) : res (option particle) :=
  match fuel with
  | 0 => OutOfFuel
  | S f =>
      bind (getItems "{" "}" "," s) (fun items =>
      match items with
      | [] => Ok None
      | head :: rest =>
          bind (getItems "[" "]" ";" head) (fun ms =>
          match ms with
          | [] => UB
          | n :: mods =>
              bind (all_good (map (build w f) rest)) (fun ds =>
              if known w n
              then Ok (Some (Part n (pdgLookup (extra w) (narrow w n) (photon w n) (leastL w (Names n (map skeleton ds))) (read_modifiers (shapes w) mods)) ds))
              else UB)
          end)
      end)
  end.

(** AmpGen/Utilities.h:25-36 with the delimiter "," *)
Fixpoint join (l : list str) : str := match l with [] => [] | [s] => s | s :: r => s ++ S_ "," ++ join r end.
Fixpoint all_ok {A} (l : list (res A)) : res (list A) := match l with [] => Ok [] | r :: t => bind r (fun a => bind (all_ok t) (fun as_ => Ok (a :: as_))) end.
(** src/Particle.cpp:314-323; m_props->name() is the name that was looked up (C51). *)
Fixpoint descriptor (a : particle) : res str :=
  let '(Part n st ds) := a in
  bind (modifierString st) (fun m =>
  match ds with
  | [] => Ok (n ++ m)
  | _ => bind (all_ok (map descriptor ds)) (fun l => Ok (n ++ m ++ S_ "{" ++ join l ++ S_ "}"))
  end).

(** src/Particle.cpp:124-154 *)
Definition count (c : ascii) (s : str) : nat := List.length (positions c 0 s).
Definition up_to_bracket (s : str) : str := upto (find_char "[" s) s.
Definition isValidDecayDescriptor (known : str -> bool) (s : str) : bool :=
  let open_ := count "{" s in let close := count "}" s in
  if Nat.eqb open_ 0 || negb (Nat.eqb open_ close) then false
  else match split_delims s ["{"; "}"; ","]%char false with
       | [] => true
       | t :: r =>
           let skip t := str_eqb t (S_ "_Re") || str_eqb t (S_ "_Im") in
           (skip t || match find_char "_" t with
                      | Some i => known (up_to_bracket (skipn (i + 1) t))
                      | None => known (up_to_bracket t)
                      end)
           && forallb (fun t => skip t || known (up_to_bracket t)) r
       end.
