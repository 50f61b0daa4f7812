(** Transcription of src/QuarkContent.cpp and of the quark bookkeeping of src/Particle.cpp. The six numbers are [int]: their overflow is not modelled. *)
From Verif.Common Require Export Prelude.
From Verif.Utilities Require Export Model.

(** AmpGen/QuarkContent.h:17: numbers of d, u, s, c, b, t quarks less antiquarks. *)
Definition qstate := list Z.
Definition content := list qstate.

(** src/QuarkContent.cpp:13 *)
Definition gNames : list ascii := ["d"; "u"; "s"; "c"; "b"; "t"]%char.
(** src/QuarkContent.cpp:16-20 *)
Definition vacuum : qstate := repeat 0%Z 6.

(** [std::tolower], [islower] in the C locale, for characters. *)
Definition code (c : ascii) : nat := nat_of_ascii c.
Definition is_upper (c : ascii) : bool := Nat.leb 65 (code c) && Nat.leb (code c) 90.
Definition is_lower (c : ascii) : bool := Nat.leb 97 (code c) && Nat.leb (code c) 122.
Definition to_lower (c : ascii) : ascii := if is_upper c then ascii_of_nat (code c + 32) else c.

(** src/QuarkContent.cpp:46-52, [gPositions.find]. *)
Fixpoint position (names : list ascii) (c : ascii) (i : nat) : option nat :=
  match names with [] => None | n :: ns => if Ascii.eqb n c then Some i else position ns c (S i) end.
Fixpoint bump (i : nat) (d : Z) (q : qstate) : qstate :=
  match q, i with [], _ => [] | x :: q', 0 => (x + d)%Z :: q' | x :: q', S i' => x :: bump i' d q' end.
(** src/QuarkContent.cpp:38-43: the body of the loop over the characters. *)
Definition read_char (q : qstate) (c : ascii) : qstate :=
  match position gNames (to_lower c) 0 with
  | None => q
  | Some i => bump i (if is_lower c then 1 else -1)%Z q
  end.
(** src/QuarkContent.cpp:37-44 *)
Definition read_state (s : str) : qstate := fold_left read_char s vacuum.

Fixpoint zip (f : Z -> Z -> Z) (a b : qstate) {struct a} : qstate :=
  match a, b with x :: a', y :: b' => f x y :: zip f a' b' | _, _ => [] end.
(** src/QuarkContent.cpp:77-99 *)
Definition qadd : qstate -> qstate -> qstate := zip Z.add.
Definition qsub : qstate -> qstate -> qstate := zip Z.sub.
(** src/QuarkContent.cpp:54-57 *)
Definition qanti (q : qstate) : qstate := map (fun x => (-1) * x)%Z q.
(** src/QuarkContent.cpp:100-103 *)
Definition is_vacuum (q : qstate) : bool := forallb (Z.eqb 0) q.
(** src/QuarkContent.cpp:105-110 *)
Fixpoint qeqb (a b : qstate) {struct a} : bool :=
  match a, b with x :: a', y :: b' => Z.eqb x y && qeqb a' b' | [], [] => true | _, _ => false end.

(** src/QuarkContent.cpp:22-35 *)
Definition contains (p s : str) : bool := match find0 p s with Some _ => true | None => false end.
Definition read_content (fuel : nat) (s : str) : res content :=
  if contains (S_ "non-qQ") s then Ok [vacuum]
  else bind (replaceAll fuel s (S_ "sqrt") []) (fun r =>
    let qs := filter (fun q => negb (is_vacuum q)) (map read_state (split_delims r ["("; ")"; "+"; "-"]%char false)) in
    Ok (match qs with [] => [vacuum] | _ => qs end)).

(** src/QuarkContent.cpp:119 *)
Definition empty_content : content := [vacuum].
(** src/QuarkContent.cpp:121-124 *)
Definition anti (a : content) : content := map qanti a.

(** src/QuarkContent.cpp:136-165 where [rhs] is another object. With at most one alternative in all, [rhs[i]] is read for every alternative of [this]. *)
Definition combine (f : qstate -> qstate -> qstate) (a b : content) : res content :=
  if Nat.leb (List.length a * List.length b) 1 then
    match a, b with
    | [], _ => Ok []
    | [x], y :: _ => Ok [f x y]
    | _, _ => UB
    end
  else Ok (flat_map (fun x => map (fun y => f x y) b) a).
Definition add : content -> content -> res content := combine qadd.
Definition subtract : content -> content -> res content := combine qsub.
(** src/QuarkContent.cpp:136-165 where [rhs] is the object itself: [m_quarks.clear()] empties [rhs] as well. *)
Definition combine_self (f : qstate -> qstate -> qstate) (a : content) : content :=
  if Nat.leb (List.length a * List.length a) 1 then map (fun x => f x x) a else [].

(** src/QuarkContent.cpp:180-187 *)
Definition same (a b : content) : bool := existsb (fun x => existsb (fun y => qeqb x y) b) a.

(** A decay tree: whether the name contains "NonRes", the content found in the particle list, the daughters. *)
Inductive particle := Part (nonres : bool) (own : content) (ds : list particle).
Definition own_of (p : particle) := match p with Part _ o _ => o end.
Definition nonres_of (p : particle) := match p with Part n _ _ => n end.
Definition daughters_of (p : particle) := match p with Part _ _ ds => ds end.
(** src/Particle.cpp:702-712 *)
Fixpoint sum_of (acc : content) (l : list (res content)) : res content :=
  match l with
  | [] => Ok acc
  | r :: l' => bind r (fun b => bind (add acc b) (fun acc' => sum_of acc' l'))
  end.
Fixpoint quarks (p : particle) : res content :=
  match p with
  | Part nr own ds => if nr then sum_of empty_content (map quarks ds) else Ok own
  end.
Definition daughter_quarks (p : particle) : res content := sum_of empty_content (map quarks (daughters_of p)).
(** src/Particle.cpp:211-212 *)
Definition is_strong (p : particle) : res bool :=
  bind (quarks p) (fun a => bind (daughter_quarks p) (fun b => Ok (same a b || nonres_of p))).
(** src/Particle.cpp:776 *)
Definition is_weak (p : particle) : res bool :=
  if negb (nonres_of p) then Ok true
  else bind (quarks p) (fun a => bind (daughter_quarks p) (fun b => Ok (negb (same a b)))).
