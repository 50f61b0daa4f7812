(** Transcription of src/ParticleProperties.cpp and of the table of particles of src/ParticlePropertiesList.cpp. *)
From Verif.Common Require Export Prelude.
From Verif.Utilities Require Export Model.
From Verif.Quarks Require Export Model.
Require Verif.Events.Model.
Notation to_string := Verif.Events.Model.to_string.

(** AmpGen/ParticleProperties.h:83-107. The masses, widths, the G and C parities, isospin, status and radius take part in nothing below: [rest] holds the words
    they are read from. [aformat] is None where the constructor leaves it uninitialised. *)
Record entry := Entry {
  ename : str; eid : Z; twoSpin : Z; parity : Z; charge : Z; chargeString : str; aformat : option ascii; quarkContent : content;
  label : str; customName : bool; rest : list str }.

(** src/ParticleProperties.cpp:40-50 *)
Definition charge_from_string (s : str) : Z :=
  if str_eqb s (S_ "+") then 1 else if str_eqb s (S_ "-") then -1 else if str_eqb s (S_ " ") then 0 else if str_eqb s (S_ "0") then 0
  else if str_eqb s (S_ "++") then 2 else if str_eqb s (S_ "--") then -2 else 0.

(** strtol(s, &p, 10) for a number that fits: blanks, a sign, digits; 0 if there are none (src/Utilities.cpp:427-434). *)
Definition digit (c : ascii) : option Z := let n := nat_of_ascii c in if Nat.leb 48 n && Nat.leb n 57 then Some (Z.of_nat (n - 48)) else None.
Fixpoint strtol_digits (acc : Z) (s : str) : Z := match s with [] => acc | c :: t => match digit c with Some d => strtol_digits (10 * acc + d) t | None => acc end end.
Definition strtol (s : str) : Z :=
  match ltrim s with
  | [] => 0
  | c :: t => if Ascii.eqb c "-" then - strtol_digits 0 t else if Ascii.eqb c "+" then strtol_digits 0 t else strtol_digits 0 (c :: t)
  end.

(** src/ParticleProperties.cpp:100-104 (and 233-238 with another value for "?"): twice the spin. *)
Definition read_spin (unknown : Z) (s : str) : Z :=
  if str_eqb s (S_ "?") then unknown
  else match find_char "/"%char s with Some k => strtol (firstn k s) | None => 2 * strtol s end.

(** src/ParticleProperties.cpp:60-115. The call of the quark content constructor is given enough fuel for its replaceAll. *)
Definition parse_line (line : str) : res (option entry) :=
  match line with
  | [] => Ok None
  | c :: _ =>
      if Ascii.eqb c "*" then Ok None else
      match map trim (Verif.Utilities.Model.split line ","%char false) with
      | [s0; s1; s2; s3; s4; s5; s6; s7; s8; s9; s10; s11; s12; s13; s14; s15; s16; s17] =>
          bind (read_content (S (List.length s17)) s17) (fun q =>
          Ok (Some (Entry s16 (strtol s12) (read_spin (-1) s8) (charge_from_string s9) (charge_from_string s13) s13
                     (Some (match s11 with [c] => c | _ => " "%char end)) q [] false [s0; s1; s2; s3; s4; s5; s6; s7; s10; s14; s15])))
      | _ => Ok None
      end
  end.
(** AmpGen/ParticleProperties.h:29 with the empty string: ParticleProperties.cpp:60-67 returns at once. *)
Definition blank_entry : entry := Entry [] 0 0 0 0 [] None empty_content [] false [].

(** src/ParticleProperties.cpp:117: reading an uninitialised [m_Aformat] is undefined. *)
Definition has_distinct_anti (e : entry) : res bool := match aformat e with None => UB | Some c => Ok (negb (Ascii.eqb c " "%char)) end.
(** src/ParticleProperties.cpp:154-156: [%] of C++ is Z.rem. *)
Definition is_fermion (e : entry) : bool := Z.eqb (Z.rem (twoSpin e) 2) 1.

(** src/ParticleProperties.cpp:119-135 *)
Definition anti_entry (e : entry) : entry :=
  Entry (ename e) (-1 * eid e) (twoSpin e) (if is_fermion e then -1 * parity e else parity e)%Z (-1 * charge e) (swapChars (chargeString e) "+"%char "-"%char)
        (aformat e) (anti (quarkContent e)) (label e) (customName e) (rest e).
Definition antiThis (e : entry) : res (bool * entry) := bind (has_distinct_anti e) (fun b => Ok (if b then (true, anti_entry e) else (false, e))).

(** src/ParticleProperties.cpp:137-144: [m_Aformat] is read if the id is negative. *)
Definition full_name (e : entry) : res str :=
  if customName e then Ok (ename e)
  else if Z.ltb (eid e) 0 then
    match aformat e with None => UB | Some c => Ok (ename e ++ (if Ascii.eqb c "F"%char then S_ "bar" else []) ++ chargeString e) end
  else Ok (ename e ++ chargeString e).

(** std::to_string(int) *)
Definition to_string_Z (z : Z) : str := if Z.ltb z 0 then "-"%char :: to_string (Z.to_nat (- z)) else to_string (Z.to_nat z).
(** src/ParticleProperties.cpp:52-58: [/] and [%] of C++ are Z.quot and Z.rem. *)
Definition J (e : entry) : str :=
  if Z.eqb (twoSpin e) (-1) then S_ "?"
  else if Z.eqb (Z.rem (twoSpin e) 2) 0 then to_string_Z (Z.quot (twoSpin e) 2)
  else if Z.eqb (Z.rem (twoSpin e) 2) 1 then to_string_Z (Z.quot (twoSpin e) 2) ++ S_ "/2"
  else [].
(** src/ParticleProperties.cpp:27-38, 158-161 *)
Definition polarisations (e : entry) : list Z :=
  (if Z.eqb (twoSpin e) 0 then [0] else if Z.eqb (eid e) 22 then [1; -1] else if Z.eqb (twoSpin e) 1 then [1; -1]
  else if Z.eqb (twoSpin e) 2 then [1; 0; -1] else if Z.eqb (twoSpin e) 4 then [2; 1; 0; -1; -2] else [0])%Z.

(** std::string::operator<: lexicographic in the unsigned characters. *)
Fixpoint str_ltb (a b : str) {struct a} : bool :=
  match a, b with
  | _, [] => false
  | [], _ :: _ => true
  | c :: a', d :: b' => if Nat.ltb (nat_of_ascii c) (nat_of_ascii d) then true else if Nat.ltb (nat_of_ascii d) (nat_of_ascii c) then false else str_ltb a' b'
  end.
(** src/ParticleProperties.cpp:204-222, where [na], [nb] are the names. *)
Definition prop_eq (a b : Z * str) : bool := if Z.eqb (fst a) 0 && Z.eqb (fst b) 0 then str_eqb (snd a) (snd b) else Z.eqb (fst a) (fst b).
Definition prop_lt (a b : Z * str) : bool := if Z.eqb (fst a) 0 || Z.eqb (fst b) 0 then str_ltb (snd a) (snd b) else Z.ltb (fst a) (fst b).
Definition prop_gt (a b : Z * str) : bool := negb (prop_eq a b || prop_lt a b).
Definition prop_le (a b : Z * str) : bool := prop_lt a b || prop_eq a b.
Definition prop_ge (a b : Z * str) : bool := prop_gt a b || prop_eq a b.

(** src/ParticleProperties.cpp:225-250; [stod] of a mass or width that is not a number throws, which is not modelled. *)
Definition set_property (key value : str) (e : entry) : res entry :=
  if str_eqb key (S_ "mass") || str_eqb key (S_ "width") then Ok (Entry (ename e) (eid e) (twoSpin e) (parity e) (charge e) (chargeString e) (aformat e) (quarkContent e) (label e) (customName e) (rest e ++ [key; value]))
  else if str_eqb key (S_ "name") then Ok (Entry value (eid e) (twoSpin e) (parity e) (charge e) (chargeString e) (aformat e) (quarkContent e) (label e) (customName e) (rest e))
  else if str_eqb key (S_ "spin") then Ok (Entry (ename e) (eid e) (read_spin 0 value) (parity e) (charge e) (chargeString e) (aformat e) (quarkContent e) (label e) (customName e) (rest e))
  else if str_eqb key (S_ "parity") then Ok (Entry (ename e) (eid e) (twoSpin e) (charge_from_string value) (charge e) (chargeString e) (aformat e) (quarkContent e) (label e) (customName e) (rest e))
  else if str_eqb key (S_ "charge") then Ok (Entry (ename e) (eid e) (twoSpin e) (parity e) (charge_from_string value) (chargeString e) (aformat e) (quarkContent e) (label e) (customName e) (rest e))
  else if str_eqb key (S_ "quarks") then
    bind (read_content (S (List.length value)) value) (fun q => Ok (Entry (ename e) (eid e) (twoSpin e) (parity e) (charge e) (chargeString e) (aformat e) q (label e) (customName e) (rest e)))
  else Ok e.

(** ** The table: the entries (those of [m_theList], then those made by [new]), and the two maps to them. *)
Record table := Table { heap : list entry; byName : list (str * nat); byID : list (Z * nat) }.

Definition set_label (l : str) (e : entry) : entry :=
  Entry (ename e) (eid e) (twoSpin e) (parity e) (charge e) (chargeString e) (aformat e) (quarkContent e) l (customName e) (rest e).
Fixpoint find_label (labels : list (Z * (str * str))) (id : Z) : option (str * str) :=
  match labels with [] => None | (k, v) :: r => if Z.eqb k id then Some v else find_label r id end.
(** src/ParticlePropertiesList.cpp:94-116: the entries of one line. *)
Definition entries_of (labels : list (Z * (str * str))) (P : entry) : res (list entry) :=
  let lb := find_label labels (eid P) in
  let P1 := match lb with Some (a, _) => set_label a P | None => P end in
  bind (has_distinct_anti P1) (fun d =>
    if d then bind (antiThis P1) (fun r => Ok [P1; match lb with Some (_, b) => set_label b (snd r) | None => snd r end])
    else Ok [P1]).
Fixpoint read_lines (labels : list (Z * (str * str))) (lines : list str) : res (list entry) :=
  match lines with
  | [] => Ok []
  | l :: rest =>
      bind (parse_line l) (fun o => bind (match o with Some P => entries_of labels P | None => Ok [] end) (fun es =>
      bind (read_lines labels rest) (fun more => Ok (es ++ more))))
  end.

Definition name_eqb (a b : str) := str_eqb a b.
(** [m_byName.find], [m_byID.find]; an assignment puts the new pair in front. *)
Fixpoint lookup {K V} (eqb : K -> K -> bool) (k : K) (m : list (K * V)) : option V :=
  match m with [] => None | (k', v) :: r => if eqb k k' then Some v else lookup eqb k r end.
(** src/ParticlePropertiesList.cpp:119-132 *)
Fixpoint make_mappings (i : nat) (es : list entry) (t : table) : res table :=
  match es with
  | [] => Ok t
  | e :: rest => bind (full_name e) (fun n => make_mappings (S i) rest (Table (heap t) ((n, i) :: byName t) ((eid e, i) :: byID t)))
  end.
Definition make_table (es : list entry) : res table := make_mappings 0 es (Table es [] []).

(** src/ParticlePropertiesList.cpp:141-160 *)
Definition find_name (t : table) (n : str) : option entry := match lookup str_eqb n (byName t) with Some i => nth_error (heap t) i | None => None end.
Definition find_id (t : table) (id : Z) : option entry := match lookup Z.eqb id (byID t) with Some i => nth_error (heap t) i | None => None end.

(** src/ParticlePropertiesList.cpp:181-193, AmpGen/ParticleProperties.h:64-68 *)
Definition make_alias (t : table) (n alias : str) : table :=
  match find_name t n with
  | None => t
  | Some e => Table (heap t ++ [Entry alias (eid e) (twoSpin e) (parity e) (charge e) (chargeString e) (Some " "%char) (quarkContent e) (label e) true (rest e)])
                    ((alias, List.length (heap t)) :: byName t) (byID t)
  end.

(** src/ParticlePropertiesList.cpp:209-212: the loop runs until [i] equals the number of tokens; with an odd number left it reads past the end. *)
Fixpoint set_properties (tokens : list str) (e : entry) : res entry :=
  match tokens with
  | [] => Ok e
  | [_] => UB
  | k :: v :: r => bind (set_property k v e) (fun e' => set_properties r e')
  end.
Fixpoint update {A} (i : nat) (x : A) (l : list A) : list A := match l, i with [], _ => [] | _ :: r, 0 => x :: r | y :: r, S i' => y :: update i' x r end.
(** src/ParticlePropertiesList.cpp:195-214 *)
Definition add_particle (t : table) (tokens : list str) : res table :=
  match tokens with
  | _ :: n :: props =>
      match lookup str_eqb n (byName t) with
      | Some i =>
          match nth_error (heap t) i with
          | None => UB
          | Some e => bind (set_properties props e) (fun e' => Ok (Table (update i e' (heap t)) ((n, i) :: byName t) (byID t)))
          end
      | None => bind (set_property (S_ "name") n blank_entry) (fun e => bind (set_properties props e) (fun e' =>
                  Ok (Table (heap t ++ [e']) ((n, List.length (heap t)) :: byName t) (byID t))))
      end
  | _ => UB
  end.

(** src/Particle.cpp:694: the properties of the conjugate of a particle that is not the head (or with invertHead); [p->name()] of a null pointer is undefined. *)
Definition conj_entry (t : table) (e : entry) : res entry :=
  bind (has_distinct_anti e) (fun b => if b then of_opt (find_id t (-1 * eid e)) else Ok e).
