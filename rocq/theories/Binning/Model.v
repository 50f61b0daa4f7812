(** Transcription of src/BinDT.cpp and src/FastDT.cpp: binary trees of cuts made from a sample, their look-up, and the
    text form of BinDT. Coordinates are rational numbers and the arithmetic on them is exact (the code: double). *)
From Verif.Common Require Export Prelude.
From Coq Require Export QArith.
From Verif.Utilities Require Import Model.
Local Open Scope nat_scope.

Definition Qlt_bool (a b : Q) : bool := negb (Qle_bool b a).
(** [double*]: the coordinates of one event; reading past the end is undefined. *)
Notation event := (list Q).
Definition at_ (e : event) (i : nat) : Q := nth i e 0%Q.
Definition readable (i : nat) (evts : list event) : bool := forallb (fun e => i <? List.length e) evts.

(** AmpGen/BinDT.h:48-83: the two kinds of nodes. [Cut i v l r]: m_index, m_value, m_left, m_right. *)
Inductive tree :=
| End (vox bin : nat)
| Cut (index : nat) (value : Q) (left right : tree).

(** src/BinDT.cpp:345,360-363. *)
Fixpoint lookup (t : tree) (e : event) : res (nat * nat) :=
  match t with
  | End vox bin => Ok (vox, bin)
  | Cut i v l r =>
      match nth_error e i with
      | None => UB
      | Some x => if Qlt_bool x v then lookup r e else lookup l e
      end
  end.
(** m_endNodes in the order in which [visit] (src/BinDT.cpp:365-370) meets them. *)
Fixpoint leaves (t : tree) : list (nat * nat) :=
  match t with End v b => [(v, b)] | Cut _ _ l r => leaves l ++ leaves r end.

(** AmpGen/BinDT.h:149-152. *)
Record conf := { dim : nat; minEvents : nat; maxDepth : nat; ordering : list nat }.

Section Make.
  (** [sort i l]: std::sort by coordinate i. The order of events with equal coordinates is unspecified, hence a
      parameter; what is used of it is in Spec.v. [by_variance l]: the coordinates 0..dim-1 in the order of decreasing
      nearest neighbour variance (src/BinDT.cpp:316-321; 18-36), a parameter as well. *)
  Variables (sort : nat -> list event -> list event) (by_variance : list event -> list nat) (c : conf).

  (** src/BinDT.cpp:38-51. [evts[midpoint-1]] of an empty sample and [evts[midpoint+1]] of a single event are out of
      range. *)
  Definition splitEvents (evts : list event) (index : nat) : res (list event * list event * Q) :=
    if readable index evts then
      let s := sort index evts in
      let n := List.length s in
      let m := n / 2 in
      let x k := option_map (fun e => at_ e index) (nth_error s k) in
      match m with
      | 0 => UB
      | S p =>
          match x p, x m with
          | Some a, Some b =>
              bind (if Nat.even n then Ok (((a + b) / 2)%Q)
                    else match x (S m) with Some d => Ok (((d + a + b) / 3)%Q) | None => UB end) (fun v =>
              let m' := if Qlt_bool b v then S m else m in
              Ok (firstn m' s, skipn m' s, v))
          | _, _ => UB
          end
      end
    else UB.

  (** src/BinDT.cpp:310-325: the coordinates appended to the queue. m_queueOrdering is filled with 0..dim-1 at the
      first use if the user left it empty. The nearest neighbour variance reads evts[1] and evts[size-2]. *)
  Definition refreshQueue (evts : list event) (queue : list nat) (depth : nat) : res (list nat) :=
    if (minEvents c * 2 ^ dim c <? List.length evts) && (depth + dim c <? maxDepth c) then
      let ord := match ordering c with [] => seq 0 (dim c) | o => o end in
      if dim c <=? List.length ord then Ok (queue ++ firstn (dim c) ord) else UB
    else if (dim c =? 0) then Ok queue
    else if List.length evts <? 2 then UB
    else Ok (queue ++ by_variance evts).

  (** src/BinDT.cpp:170-189. The state is m_endNodes; of each end node we keep the events it was made of (the code
      keeps only the number m_endNodes.size()). EndNode's default bin number is 999 (BinDT.h:51). *)
  Fixpoint makeNodes (fuel : nat) (evts : list event) (queue : list nat) (depth : nat) (ends : list (list event))
    : res (tree * list (list event)) :=
    match fuel with
    | 0 => OutOfFuel
    | S f =>
        match queue with
        | [] => UB
        | index :: rest =>
            if (List.length evts <? 2 * minEvents c) || (maxDepth c <? depth) then
              Ok (End (List.length ends) 999, ends ++ [evts])
            else
              bind (splitEvents evts index) (fun '(lo, hi, v) =>
              bind (match rest with [] => refreshQueue evts [] (S depth) | _ => Ok rest end) (fun q =>
              bind (makeNodes f lo q (S depth) ends) (fun '(tl, e1) =>
              bind (makeNodes f hi q (S depth) e1) (fun '(tr, e2) =>
              Ok (Cut index v tr tl, e2)))))
        end
    end.
  (** src/BinDT.cpp:156-168. *)
  Definition build (fuel : nat) (evts : list event) : res (tree * list (list event)) :=
    bind (refreshQueue evts [] 0) (fun q => makeNodes fuel evts q 0 []).

  (** ** Two samples: src/BinDT.cpp:271-308.
      [cut source target index]: the position found by the line search (lines 199-236), a parameter.
      std::lower_bound over a sorted range: the first event whose coordinate is not below the cut. *)
  Variable cut : list event -> list event -> nat -> Q.
  Fixpoint take_while (f : event -> bool) (l : list event) : list event :=
    match l with x :: l' => if f x then x :: take_while f l' else [] | [] => [] end.
  Fixpoint drop_while (f : event -> bool) (l : list event) : list event :=
    match l with x :: l' => if f x then drop_while f l' else l | [] => [] end.
  Definition below (i : nat) (v : Q) (e : event) : bool := Qlt_bool (at_ e i) v.

  Fixpoint makeNodes2 (fuel : nat) (source target : list event) (queue : list nat) (depth : nat)
    (ends : list (list event * list event)) : res (tree * list (list event * list event)) :=
    match fuel with
    | 0 => OutOfFuel
    | S f =>
        match queue with
        | [] => UB
        | index :: rest =>
            let stop := Ok (End (List.length ends) 999, ends ++ [(source, target)]) in
            if (maxDepth c <? depth) || (List.length source <? 2 * minEvents c) || (List.length target <? 2 * minEvents c)
            then stop
            else if readable index source && readable index target then
              let s := sort index source in
              let t := sort index target in
              let v := cut s t index in
              let sl := take_while (below index v) s in
              let sr := drop_while (below index v) s in
              let tl := take_while (below index v) t in
              let tr := drop_while (below index v) t in
              if (List.length sl =? 0) || (List.length sr =? 0) then stop
              else
                bind (match rest with [] => refreshQueue s [] (S depth) | _ => Ok rest end) (fun q =>
                bind (makeNodes2 f sl tl q (S depth) ends) (fun '(a, e1) =>
                bind (makeNodes2 f sr tr q (S depth) e1) (fun '(b, e2) =>
                Ok (Cut index v b a, e2))))
            else UB
        end
    end.
  (** src/BinDT.cpp:191-197. *)
  Definition build2 (fuel : nat) (source target : list event) : res (tree * list (list event * list event)) :=
    bind (refreshQueue source [] 0) (fun q => makeNodes2 fuel source target q 0 []).
End Make.

(** ** The object. src/BinDT.cpp:91-103 and AmpGen/BinDT.h:86-106: a default constructed object has no tree; the
    constructor from an EventList and an ArgumentPack calls makeNodes and drops its result (line 102), the template
    constructors keep it. *)
Record BinDT := { m_top : option tree; m_size : nat }.
Inductive ctor := FromAddresses | FromRange | FromListAndPack.
Definition construct (k : ctor) (made : res (tree * list (list event))) : res BinDT :=
  bind made (fun '(t, ends) =>
    Ok {| m_top := match k with FromListAndPack => None | _ => Some t end; m_size := List.length ends |}).
(** src/BinDT.cpp:53-70: the voxel number and the bin number of a point; a null tree is dereferenced. *)
Definition getBinNumber (b : BinDT) (e : event) : res nat :=
  bind (of_opt (m_top b)) (fun t => bind (lookup t e) (fun r => Ok (fst r))).
Definition getBin (b : BinDT) (e : event) : res nat :=
  bind (of_opt (m_top b)) (fun t => bind (lookup t e) (fun r => Ok (snd r))).

(** ** Text form *)
Section Text.
  (** How integers and doubles are printed and read ([None]: stoi / stod throw). *)
  Variables (shown : nat -> str) (stoi : str -> option nat) (showd : Q -> str) (stod : str -> option Q).

  (** The tree with the address of each object as printed by [stream << this]. *)
  Inductive obj :=
  | OEnd (a : str) (vox bin : nat)
  | OCut (a : str) (index : nat) (value : Q) (left right : obj).
  Definition addr (o : obj) : str := match o with OEnd a _ _ => a | OCut a _ _ _ _ => a end.
  Fixpoint tree_of (o : obj) : tree :=
    match o with OEnd _ v b => End v b | OCut _ i v l r => Cut i v (tree_of l) (tree_of r) end.

  Definition sp : ascii := " "%char.
  Definition nl : ascii := "010"%char.
  (** src/BinDT.cpp:336-341, 353-356: one line per node, the children after it. *)
  Fixpoint serialize_node (o : obj) : str :=
    match o with
    | OEnd a v b => a ++ sp :: shown v ++ sp :: shown b ++ [nl]
    | OCut a i v l r =>
        (a ++ sp :: shown i ++ sp :: showd v ++ sp :: addr l ++ sp :: addr r ++ [nl]) ++ serialize_node l ++ serialize_node r
    end.
  (** src/BinDT.cpp:142-147. *)
  Definition serialize (o : obj) : str := serialize_node o ++ S_ "end".

  (** The objects made by the reader: children are named by their addresses until they are linked. *)
  Inductive inode := IEnd (vox bin : nat) | ICut (index : nat) (value : Q) (left right : str).
  Definition table := list (str * inode).
  Fixpoint find_node (a : str) (m : table) : option inode :=
    match m with [] => None | (b, n) :: m' => if str_eqb a b then Some n else find_node a m' end.
  Fixpoint assign (a : str) (n : inode) (m : table) : table :=
    match m with [] => [(a, n)] | (b, k) :: m' => if str_eqb a b then (b, n) :: m' else (b, k) :: assign a n m' end.

  (** src/BinDT.cpp:112-126: one line; the state is the map, the address of the top node and m_endNodes. A line that
      does not parse is reported and passed over; a missing word is read out of range. *)
  Definition read_line (line : str) (st : table * str * list (nat * nat)) : res (table * str * list (nat * nat)) :=
    let '(m, top, ends) := st in
    match split line sp true with
    | [] => UB
    | address :: ws =>
        let top' := match top with [] => address | _ => top end in
        match ws with
        | [i; v; l; r] =>
            match stoi i, stod v with
            | Some i', Some v' => Ok (assign address (ICut i' v' l r) m, top', ends)
            | _, _ => Ok (m, top', ends)
            end
        | [] => UB
        | v :: ws' =>
            match stoi v with
            | None => Ok (m, top', ends)
            | Some v' =>
                match ws' with
                | [b] => match stoi b with
                         | Some b' => Ok (assign address (IEnd v' b') m, top', ends ++ [(v', b')])
                         | None => Ok (m, top', ends)
                         end
                | _ => Ok (assign address (IEnd v' 999) m, top', ends ++ [(v', 999)])
                end
            end
        end
    end.
  Fixpoint read_lines (ls : list str) (st : table * str * list (nat * nat)) : res (table * str * list (nat * nat)) :=
    match ls with
    | [] => Ok st
    | l :: ls' => if str_eqb l (S_ "end") then Ok st else bind (read_line l st) (read_lines ls')
    end.
  (** src/BinDT.cpp:130-139: the children are looked up by their addresses; a missing one is the null pointer, through
      which setChildren (lines 343-349) writes. *)
  Definition linked (m : table) : bool :=
    forallb (fun '(_, n) => match n with
                            | IEnd _ _ => true
                            | ICut _ _ l r => match find_node l m, find_node r m with Some _, Some _ => true | _, _ => false end
                            end) m.
  (** src/BinDT.cpp:105-140, on a fresh object: the nodes, the top address and m_endNodes. *)
  Definition readFromStream (s : str) : res (table * str * list (nat * nat)) :=
    bind (read_lines (getlines nl [] s) ([], [], [])) (fun '(m, top, ends) =>
      if linked m then Ok (m, top, ends) else UB).
  (** The look-up in the linked objects (src/BinDT.cpp:360-363); a null top is dereferenced. *)
  Fixpoint follow (fuel : nat) (m : table) (a : str) (e : event) : res (nat * nat) :=
    match fuel with
    | 0 => OutOfFuel
    | S f =>
        match find_node a m with
        | None => UB
        | Some (IEnd v b) => Ok (v, b)
        | Some (ICut i v l r) =>
            match nth_error e i with
            | None => UB
            | Some x => if Qlt_bool x v then follow f m r e else follow f m l e
            end
        end
    end.
End Text.

(** ** FastDT: the nodes in one array. AmpGen/FastDT.h:30-40. *)
Record node := { n_index : nat; n_left : Z; n_right : Z; n_cut : Q }.
(** m_nodes, m_endNodeCounter and (ours) the events of each end node, newest last. *)
Record fast := { m_nodes : list node; counter : Z; filled : list (list event * list event) }.

(** src/FastDT.cpp:40-55. *)
Fixpoint walk (fuel : nat) (nodes : list node) (e : event) (address : Z) : res nat :=
  match fuel with
  | 0 => OutOfFuel
  | S f =>
      if (address <? 0)%Z then UB
      else match nth_error nodes (Z.to_nat address) with
      | None => UB
      | Some n =>
          match n_index n with
          | 0 => Throw
          | S i =>
              match nth_error e i with
              | None => UB
              | Some x =>
                  let a := if Qlt_bool (n_cut n) x then n_right n else n_left n in
                  if (a <? 0)%Z then Ok (Z.to_nat (Z.abs a - 1))
                  else if (Z.of_nat (List.length nodes) <=? a)%Z then Throw
                  else walk f nodes e a
              end
          end
      end
  end.
Definition findNode (nodes : list node) (e : event) : res nat :=
  walk (S (List.length nodes)) nodes e (Z.of_nat (List.length nodes) - 1).

Section MakeFast.
  Variables (sort : nat -> list event -> list event) (by_variance : list event -> list nat) (c : conf).
  (** src/FastDT.cpp:88-102: as in BinDT, but the whole ordering is copied. setQueueOrdering (FastDT.h:68) does
      nothing, so the ordering is 0..dim-1. *)
  Definition refreshFast (evts : list event) (depth : nat) : res (list nat) :=
    if (minEvents c * 2 ^ dim c <? List.length evts) && (depth + dim c <? maxDepth c) then Ok (seq 0 (dim c))
    else if (dim c =? 0) then Ok []
    else if List.length evts <? 2 then UB
    else Ok (by_variance evts).
  Definition new_end (s t : list event) (st : fast) : res (Z * fast) :=
    Ok ((counter st - 1)%Z, {| m_nodes := m_nodes st; counter := counter st - 1; filled := filled st ++ [(s, t)] |}).
  Definition push_node (n : node) (st : fast) : res (Z * fast) :=
    Ok (Z.of_nat (List.length (m_nodes st)), {| m_nodes := m_nodes st ++ [n]; counter := counter st; filled := filled st |}).
  (** src/FastDT.cpp:144-159; the queue at depth 0 is empty. _splitEvents (lines 72-86) is the code of
      BinDT.cpp:38-51. *)
  Fixpoint makeFast (fuel : nat) (evts : list event) (queue : list nat) (depth : nat) (st : fast) : res (Z * fast) :=
    match fuel with
    | 0 => OutOfFuel
    | S f =>
        bind (match queue, depth with [], 0 => refreshFast evts 1 | _, _ => Ok queue end) (fun q =>
        match q with
        | [] => UB
        | index :: rest =>
            if (List.length evts <? 2 * minEvents c) || (maxDepth c <? depth) then new_end evts [] st
            else
              bind (splitEvents sort evts index) (fun '(lo, hi, v) =>
              bind (match rest with [] => refreshFast evts (S depth) | _ => Ok rest end) (fun q' =>
              bind (makeFast f lo q' (S depth) st) (fun '(l, s1) =>
              bind (makeFast f hi q' (S depth) s1) (fun '(r, s2) =>
              push_node {| n_index := S index; n_left := l; n_right := r; n_cut := v |} s2))))
        end)
    end.

  (** src/FastDT.cpp:175-249, two samples. [shuffled]: makeQueue (lines 165-174), a random order of the coordinates;
      [cut]: the line search, [None] when no position qualifies (lines 118-142). A coordinate already used is marked
      -1, here [None]. With [Strategy::best] the code reads *it at the end of the queue (line 208). *)
  Variables (shuffled : list event -> nat -> list nat) (cut : list event -> list event -> nat -> option Q).
  Inductive strategy := Best | Random.
  Fixpoint first_unused (q : list (option nat)) : option (nat * list (option nat)) :=
    match q with
    | [] => None
    | Some i :: q' => Some (i, None :: q')
    | None :: q' => option_map (fun '(i, r) => (i, None :: r)) (first_unused q')
    end.
  Definition upto_cut (i : nat) (v : Q) (e : event) : bool := Qle_bool (at_ e i) v.
  Fixpoint makeFast2 (fuel : nat) (how : strategy) (source target : list event) (queue : list (option nat)) (depth : nat)
    (st : fast) : res (Z * fast) :=
    match fuel with
    | 0 => OutOfFuel
    | S f =>
        if (maxDepth c <=? depth) || (List.length source <? 2 * minEvents c) || (List.length target <? 2 * minEvents c)
        then new_end source target st
        else
          let q := if forallb (fun o => match o with None => true | Some _ => false end) queue
                   then map Some (shuffled source depth) else queue in
          match how with
          | Best => UB
          | Random =>
              match first_unused q with
              | None => UB
              | Some (index, q') =>
                  if readable index source && readable index target then
                    let s := sort index source in
                    let t := sort index target in
                    match cut s t index with
                    | None => new_end source target st
                    | Some v =>
                        let sl := take_while (upto_cut index v) s in
                        let sr := drop_while (upto_cut index v) s in
                        let tl := take_while (upto_cut index v) t in
                        let tr := drop_while (upto_cut index v) t in
                        if (List.length sl =? 0) || (List.length sr =? 0) then new_end source target st
                        else
                          bind (makeFast2 f how sl tl q' (S depth) st) (fun '(l, s1) =>
                          bind (makeFast2 f how sr tr q' (S depth) s1) (fun '(r, s2) =>
                          push_node {| n_index := S index; n_left := l; n_right := r; n_cut := v |} s2))
                    end
                  else UB
              end
          end
    end.
  Definition fast0 : fast := {| m_nodes := []; counter := 0; filled := [] |}.
  Definition trainFast (fuel : nat) (evts : list event) : res fast :=
    bind (makeFast fuel evts [] 0 fast0) (fun r => Ok (snd r)).
  Definition trainFast2 (fuel : nat) (how : strategy) (s t : list event) : res fast :=
    bind (makeFast2 fuel how s t (map Some (shuffled s 0)) 0 fast0) (fun r => Ok (snd r)).
End MakeFast.
