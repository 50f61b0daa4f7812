(** Events read from and written to trees: src/EventList.cpp:63-168, src/TreeReader.cpp, AmpGen/TreeReader.h:13-104, src/Units.cpp.
    Of ROOT: a tree has columns and rows; SetBranchAddress gives the address to which GetEntry copies the value of the column, which a second call
    for the same column replaces; GetEntry of a number beyond the last row copies nothing; Draw(">>list", cut) lists the rows that pass, in order.
    Real numbers stand for double, float and integers. The ordering by IDs (C43) and the symmetrisation (C68) are one function [order] of the position
    in the loop and the values. Reading the event type from the title and the messages are left out, and
    that the filter can only use columns that are read. *)
From Verif.Common Require Import Prelude Writes.
From Coq Require Import Reals.
Local Open Scope nat_scope.
Record tree := Tree { cols : list str; rows : list (str -> R) }.
Record event := Event { vals : list R; weight : R; genPdf : R }.
(** What a branch is read to: a value of the event, its weight, or its density. *)
Inductive target := Val (k : nat) | Wgt | Gen.
Definition branch := (str * target)%type.
Definition mem (x : str) (l : list str) : bool := existsb (str_eqb x) l.
(** AmpGen/TreeReader.h:78-95, src/TreeReader.cpp:9-17: a column that does not exist is reported, and left out. *)
Definition setBranch (t : tree) (b : branch) (bs : list branch) : list branch := if mem (fst b) (cols t) then bs ++ [b] else bs.
(** The address of an element of temp, which has [size] of them. *)
Fixpoint setValues (t : tree) (size : nat) (l : list (str * nat)) (bs : list branch) : res (list branch) :=
  match l with [] => Ok bs | (x, k) :: r => if k <? size then setValues t size r (setBranch t (x, Val k) bs) else UB end.
(** *output = thing *)
Definition assign (o : target) (v : R) (e : event) : res event :=
  match o with
  | Val k => bind (of_opt (set_at k v (vals e))) (fun l => Ok (Event l (weight e) (genPdf e)))
  | Wgt => Ok (Event (vals e) v (genPdf e))
  | Gen => Ok (Event (vals e) (weight e) v)
  end.
(** src/TreeReader.cpp:27, AmpGen/TreeReader.h:25-32: what has never been copied to is not initialised. *)
Fixpoint transfer (bs : list branch) (buf : option (str -> R)) (e : event) : res event :=
  match bs with
  | [] => Ok e
  | (x, o) :: r => if existsb (fun b => str_eqb (fst b) x) r then UB
                   else match buf with None => UB | Some row => bind (assign o (row x) e) (transfer r buf) end
  end.
(** src/TreeReader.cpp:23-28; the state is the row copied last and the event. *)
Definition state := (option (str -> R) * event)%type.
Definition getEntry (t : tree) (el : list nat) (bs : list branch) (entry : nat) (s : state) : res state :=
  bind (match el with [] => Ok entry | _ => of_opt (nth_error el entry) end) (fun i =>
  let buf := match nth_error (rows t) i with Some r => Some r | None => fst s end in
  bind (transfer bs buf (snd s)) (fun e => Ok (buf, e))).
(** src/TreeReader.cpp:40 *)
Definition nEntries (t : tree) (el : list nat) : nat := match el with [] => List.length (rows t) | _ => List.length el end.

(** What loadFromTree is given: getEventFormat(true) (C42) and the masses of the event type; branches, extra branches, whether to read genPdf, the branch
    of the weight, the filter, the entry list and the units (to_double). *)
Record arguments := Args { format : list (str * nat); masses : list R; branches : list str; extra : list str; getGenPdf : bool; weightBranch : str;
  filter_ : option ((str -> R) -> bool); entryList : list nat; units : R }.
Section Load.
  Variable order : nat -> list R -> list R.
  Variable a : arguments.
  Definition nParticles : nat := List.length (masses a).
  (** src/EventList.cpp:91 *)
  Definition hasEnergy : bool := (List.length (branches a) =? 0) || (List.length (branches a) =? 4 * nParticles).
  (** src/EventList.cpp:98 *)
  Definition place (p : nat) : nat := if hasEnergy then p else 4 * (p / 3) + p mod 3.
  Fixpoint places (p : nat) (l : list str) : list (str * nat) := match l with [] => [] | x :: r => (x, place p) :: places (S p) r end.
  (** src/EventList.cpp:109-113 *)
  Fixpoint numbered (k : nat) (l : list str) : list (str * nat) := match l with [] => [] | x :: r => (x, k) :: numbered (S k) r end.
  Definition size_of : nat := List.length (format a) + List.length (extra a).
  (** src/EventList.cpp:93-115 *)
  Definition connect (t : tree) : res (list branch) :=
    bind (setValues t size_of (match branches a with [] => format a | l => places 0 l end) []) (fun bs =>
    bind (setValues t size_of (numbered (List.length (format a)) (extra a)) bs) (fun bs =>
    let bs := if getGenPdf a then setBranch t (S_ "genPdf", Gen) bs else bs in
    Ok (match weightBranch a with [] => bs | w => setBranch t (w, Wgt) bs end))).
  (** src/EventList.cpp:116-126; the entries that pass are added to the list. *)
  Fixpoint passing (f : (str -> R) -> bool) (i : nat) (l : list (str -> R)) : list nat :=
    match l with [] => [] | r :: l' => if f r then i :: passing f (S i) l' else passing f (S i) l' end.
  Definition entries (t : tree) : list nat := match filter_ a with None => entryList a | Some f => entryList a ++ passing f 0 (rows t) end.
  (** src/EventList.cpp:131 *)
  Fixpoint scale (n : nat) (l : list R) : list R := match n, l with S m, x :: r => (x * units a)%R :: scale m r | _, _ => l end.
  (** src/EventList.cpp:135-136 *)
  Fixpoint energies (k : nat) (ms : list R) (v : list R) : res (list R) :=
    match ms with
    | [] => Ok v
    | m :: r => bind (of_opt (nth_error v (4 * k))) (fun x => bind (of_opt (nth_error v (4 * k + 1))) (fun y => bind (of_opt (nth_error v (4 * k + 2))) (fun z =>
        bind (of_opt (set_at (4 * k + 3) (sqrt (m * m + x * x + y * y + z * z)) v)) (energies (S k) r))))
    end.
  (** src/EventList.cpp:131-138 *)
  Definition body (pos : nat) (e : event) : res event :=
    let v := order pos (scale (List.length (format a)) (vals e)) in
    bind (if hasEnergy then Ok v else energies 0 (masses a) v) (fun v => Ok (Event v (weight e) (genPdf e))).
  (** What is stored until something fails, and whether it does. *)
  Definition after {A} (x : res A) (k : A -> list event * res unit) : list event * res unit :=
    match x with Ok y => k y | UB => ([], UB) | Throw => ([], Throw) | OutOfFuel => ([], OutOfFuel) end.
  (** src/EventList.cpp:130-139, AmpGen/TreeReader.h:46-51, src/TreeReader.cpp:47: the increment reads the next entry, also after the last one. *)
  Fixpoint walk (t : tree) (el : list nat) (bs : list branch) (todo pos : nat) (s : state) : list event * res unit :=
    match todo with
    | 0 => ([], Ok tt)
    | S m => after (body pos (snd s)) (fun e =>
        let r := after (getEntry t el bs (S pos) (fst s, e)) (walk t el bs m (S pos)) in (e :: fst r, snd r))
    end.
  Definition blank : event := Event (repeat 0%R size_of) 1 1.
  Definition loadFromTree (t : tree) : list event * res unit :=
    after (connect t) (fun bs => let el := entries t in after (getEntry t el bs 0 (None, blank)) (walk t el bs (nEntries t el) 0)).
End Load.

(** src/EventList.cpp:144-168: tmp has the branches at the places of the format and of m_extensions; in a list of events of the same size the assignment to
    tmp keeps its storage. Of columns of the same name the first counts. *)
Definition value_of (fmt : list (str * nat)) (e : event) (x : str) : R :=
  match find (fun f => str_eqb (fst f) x) fmt with
  | Some f => nth (snd f) (vals e) 0%R
  | None => if str_eqb x (S_ "genPdf") then genPdf e else weight e
  end.
Definition write (fmt ext : list (str * nat)) (l : list event) : res (option tree) :=
  match l with
  | [] => Ok None
  | e :: _ => if forallb (fun f => snd f <? List.length (vals e)) (fmt ++ ext) && forallb (fun x => List.length (vals x) =? List.length (vals e)) l
              then Ok (Some (Tree (map fst (fmt ++ ext) ++ [S_ "genPdf"; S_ "weight"]) (map (value_of (fmt ++ ext)) l))) else UB
  end.
