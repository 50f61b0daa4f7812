(** Transcription of src/Event.cpp, src/EventList.cpp, of the event format and the orderings of src/EventType.cpp, and of
    the generation loop of AmpGen/Generator.h. *)
From Verif.Common Require Export Prelude Writes.
From Coq Require Export QArith.
Local Open Scope nat_scope.

(** ** One event. AmpGen/Event.h: m_event, m_weight, m_genPdf, m_index. Element access is unchecked: out of range is
    undefined. *)
Section Momenta.
  Variable A : Type.
  Notation data := (list A).
  (** [Event::get]. *)
  Definition get (e : data) (i : nat) : res A := of_opt (nth_error e i).
  (** The four numbers from position [4*i] on, as memmove and [set(i, const real_t* )] take them. *)
  Definition block (e : data) (i : nat) : res (A * A * A * A) :=
    bind (get e (4 * i)) (fun a => bind (get e (4 * i + 1)) (fun b =>
    bind (get e (4 * i + 2)) (fun c => bind (get e (4 * i + 3)) (fun d => Ok (a, b, c, d))))).
  Definition put (e : data) (i : nat) (x : A) : res data := of_opt (set_at i x e).
  (** src/Event.cpp:76-78. *)
  Definition set_block (e : data) (i : nat) (p : A * A * A * A) : res data :=
    let '(a, b, c, d) := p in
    bind (put e (4 * i) a) (fun e => bind (put e (4 * i + 1) b) (fun e =>
    bind (put e (4 * i + 2) c) (fun e => put e (4 * i + 3) d))).
  (** src/Event.cpp:84-90. *)
  Definition swap (e : data) (i j : nat) : res data :=
    bind (block e j) (fun tmp => bind (block e i) (fun p =>
    bind (set_block e j p) (fun e' => set_block e' i tmp))).
  (** src/Event.cpp:92-96. *)
  Fixpoint reorder_from (i : nat) (addresses : list nat) (copy e : data) : res data :=
    match addresses with
    | [] => Ok e
    | a :: rest => bind (block copy i) (fun p => bind (set_block e a p) (reorder_from (S i) rest copy))
    end.
  Definition reorder (addresses : list nat) (e : data) : res data := reorder_from 0 addresses e e.

  (** Invariant masses squared, over the numbers with their operations. *)
  Variables (zero : A) (add sub mul : A -> A -> A).
  Notation "x + y" := (add x y). Notation "x - y" := (sub x y). Notation "x * y" := (mul x y).
  (** src/Event.cpp:33-38. *)
  Definition s1 (e : data) (i : nat) : res A :=
    bind (block e i) (fun '(x, y, z, t) => Ok (t * t - x * x - y * y - z * z)).
  (** src/Event.cpp:40-45. *)
  Definition s2 (e : data) (i j : nat) : res A :=
    bind (block e i) (fun '(x1, y1, z1, t1) => bind (block e j) (fun '(x2, y2, z2, t2) =>
      Ok ((t1 + t2) * (t1 + t2) - (x1 + x2) * (x1 + x2) - (y1 + y2) * (y1 + y2) - (z1 + z2) * (z1 + z2)))).
  (** src/Event.cpp:47-56. *)
  Definition s3 (e : data) (i j k : nat) : res A :=
    bind (block e i) (fun '(x1, y1, z1, t1) => bind (block e j) (fun '(x2, y2, z2, t2) => bind (block e k) (fun '(x3, y3, z3, t3) =>
      Ok ((t1 + t2 + t3) * (t1 + t2 + t3) - (x1 + x2 + x3) * (x1 + x2 + x3)
          - (y1 + y2 + y3) * (y1 + y2 + y3) - (z1 + z2 + z3) * (z1 + z2 + z3))))).
  (** src/Event.cpp:58-71: the running sums. *)
  Fixpoint sum4 (e : data) (indices : list nat) (acc : A * A * A * A) : res (A * A * A * A) :=
    match indices with
    | [] => Ok acc
    | i :: rest => bind (block e i) (fun '(x, y, z, t) =>
        let '(px, py, pz, E) := acc in sum4 e rest (px + x, py + y, pz + z, E + t))
    end.
  Definition s_all (e : data) (indices : list nat) : res A :=
    match indices with
    | [i; j] => s2 e i j
    | [i; j; k] => s3 e i j k
    | _ => bind (sum4 e indices (zero, zero, zero, zero)) (fun '(px, py, pz, E) => Ok (E * E - px * px - py * py - pz * pz))
    end.
End Momenta.

(** ** Orderings of particles *)
Section Order.
  Variable A : Type.
  (** src/EventType.cpp:248-259: [used] has the size of [c1] but is indexed like [c2]. The sign is an unsigned number;
      for 32 bit ids the comparison is that of the integers. *)
  Fixpoint matches_inner (x : Z) (sgn : Z) (c2 : list Z) (j : nat) (used : list bool) : res (list bool) :=
    match c2 with
    | [] => Ok used
    | y :: c2' =>
        if (x =? sgn * y)%Z then bind (of_opt (set_at j true used)) (matches_inner x sgn c2' (S j))
        else matches_inner x sgn c2' (S j) used
    end.
  Fixpoint matches_outer (c1 : list Z) (sgn : Z) (c2 : list Z) (used : list bool) : res (list bool) :=
    match c1 with
    | [] => Ok used
    | x :: c1' => bind (matches_inner x sgn c2 0 used) (matches_outer c1' sgn c2)
    end.
  Definition matches (c1 c2 : list Z) (sgn : Z) : res bool :=
    bind (matches_outer c1 sgn c2 (repeat false (List.length c1))) (fun used => Ok (forallb (fun b => b) used)).
  (** src/EventType.cpp:262, 270-276: the first free place with the right id; 999 marks a free place. *)
  Fixpoint claim (want : Z) (i : nat) (actual : list Z) (j : nat) (addr : list nat) : res (list nat) :=
    match actual with
    | [] => Ok addr
    | y :: rest =>
        if (y =? want)%Z then
          match nth_error addr j with
          | None => UB
          | Some a => if a =? 999 then of_opt (set_at j i addr) else claim want i rest (S j) addr
          end
        else claim want i rest (S j) addr
    end.
  Fixpoint claims (sgn : Z) (i : nat) (ids actual : list Z) (addr : list nat) : res (list nat) :=
    match ids with
    | [] => Ok addr
    | d :: rest => bind (claim (sgn * d)%Z i actual 0 addr) (claims sgn (S i) rest actual)
    end.
  (** src/EventType.cpp:261-279. *)
  Definition automaticOrdering (ids actual : list Z) (e : list A) : res (bool * list A) :=
    bind (matches ids actual 1) (fun plus =>
    bind (if plus then Ok (Some 1%Z) else bind (matches ids actual (-1)) (fun minus => Ok (if minus then Some (-1)%Z else None))) (fun s =>
    match s with
    | None => Ok (false, e)
    | Some sgn =>
        bind (claims sgn 0 ids actual (repeat 999 (List.length ids))) (fun addr =>
        bind (reorder A addr e) (fun e' => Ok (true, e')))
    end)).

  (** src/EventType.cpp:232-241: Fisher-Yates over the places of one species; [draws index] is the random number in
      0..index. *)
  Definition swap_places (l : list nat) (i j : nat) : res (list nat) :=
    bind (of_opt (nth_error l i)) (fun a => bind (of_opt (nth_error l j)) (fun b =>
    bind (of_opt (set_at i b l)) (fun l' => of_opt (set_at j a l')))).
  Fixpoint shuffle_from (todo index : nat) (draw : nat -> nat) (places : list nat) (e : list A) : res (list A) :=
    match todo with
    | 0 => Ok e
    | S n =>
        let j := draw index in
        if index =? j then shuffle_from n (S index) draw places e
        else bind (swap_places places index j) (fun places' =>
             bind (of_opt (nth_error places' index)) (fun a => bind (of_opt (nth_error places' j)) (fun b =>
             bind (swap A e a b) (shuffle_from n (S index) draw places'))))
    end.
  (** One group of places after the other, each with its own draws. *)
  Fixpoint symmetrise (groups : list (list nat)) (draws : nat -> nat -> nat) (e : list A) : res (list A) :=
    match groups with
    | [] => Ok e
    | g :: rest => bind (shuffle_from (List.length g) 0 (draws (List.length rest)) g e) (symmetrise rest draws)
    end.
  (** src/EventType.cpp:218-222: the places of each name (std::map: the order of the groups is that of the names; any
      order here), those with more than one place. *)
  Definition places_of (names : list str) (n : str) : list nat :=
    map fst (filter (fun p => str_eqb (snd p) n) (combine (seq 0 (List.length names)) names)).
  Definition groups_of (names : list str) : list (list nat) :=
    filter (fun g => negb (List.length g =? 1)) (map (places_of names) (nodup str_dec names)).
End Order.

(** ** The list of events. Only the position stored in the event and its contents matter. *)
Section Lists.
  Variable A : Type.
  Record entry := { body : A; index : nat }.
  Definition with_index (n : nat) (x : entry) : entry := {| body := body x; index := n |}.
  (** src/EventList.cpp:249-259: push_back and emplace_back. *)
  Definition push_back (l : list entry) (x : entry) : list entry := l ++ [with_index (List.length l) x].
  (** src/EventList.cpp:213-222. [other] is [None] when the list is added to itself: then the source is the list being
      written, and its size is read after it has grown. [blank] is a default event. *)
  Definition source (other : option (list entry)) (l : list entry) : list entry := match other with Some o => o | None => l end.
  Fixpoint add_loop (todo i s0 : nat) (other : option (list entry)) (l : list entry) : res (list entry) :=
    match todo with
    | 0 => Ok l
    | S n => bind (of_opt (nth_error (source other l) i)) (fun x =>
             bind (of_opt (set_at (s0 + i) (with_index (s0 + i) x) l)) (add_loop n (S i) s0 other))
    end.
  Definition add_list (blank : entry) (l : list entry) (other : option (list entry)) : res (list entry) :=
    let s0 := List.length l in
    let l' := l ++ repeat blank (List.length (source other l)) in
    add_loop (List.length (source other l')) 0 s0 other l'.
  (** src/EventList.cpp:240-247: every event is replaced. *)
  Definition resize (blank : A) (n : nat) : list entry := map (fun i => {| body := blank; index := i |}) (seq 0 n).
  (** src/EventList.cpp:229-233. *)
  Definition erase (l : list entry) (from to : nat) : list entry := firstn from l ++ skipn to l.
  (** AmpGen/EventList.h:148-153: the events for which the functor holds are removed. *)
  Definition filter_list (f : A -> bool) (l : list entry) : list entry := filter (fun x => negb (f (body x))) l.
  (** AmpGen/EventList.h:142-146, a functor that changes the contents. *)
  Definition transform (f : A -> A) (l : list entry) : list entry := map (fun x => {| body := f (body x); index := index x |}) l.

  Inductive op :=
  | PushBack (x : entry) | Add (blank : entry) (other : option (list entry)) | Resize (blank : A) (n : nat) | Clear
  | Erase (from to : nat) | Filter (f : A -> bool) | Transform (f : A -> A).
  Definition run1 (l : list entry) (o : op) : res (list entry) :=
    match o with
    | PushBack x => Ok (push_back l x) | Add b other => add_list b l other | Resize b n => Ok (resize b n) | Clear => Ok []
    | Erase a b => Ok (erase l a b) | Filter f => Ok (filter_list f l) | Transform f => Ok (transform f l)
    end.
  Fixpoint run (ops : list op) (l : list entry) : res (list entry) :=
    match ops with [] => Ok l | o :: rest => bind (run1 l o) (run rest) end.
End Lists.

(** src/EventList.cpp:208-211: the accumulator has the type of the initial value, int, so each partial sum is truncated
    towards zero; a value outside int is undefined. *)
Definition truncate (q : Q) : Z := Z.quot (Qnum q) (Zpos (Qden q)).
Definition in_int (z : Z) : bool := (- 2 ^ 31 <=? z)%Z && (z <? 2 ^ 31)%Z.
Fixpoint integral_from (acc : Z) (ws : list Q) : res Z :=
  match ws with
  | [] => Ok acc
  | w :: rest => let t := truncate (inject_Z acc + w) in if in_int t then integral_from t rest else UB
  end.
Definition integral (ws : list Q) : res Z := integral_from 0 ws.

(** ** The event format *)
Section Format.
  (** Decimal digits of a number (std::to_string). *)
  Fixpoint digits (fuel n : nat) : str :=
    match fuel with 0 => [] | S f => (if n <? 10 then [] else digits f (n / 10)) ++ [ascii_of_nat (48 + n mod 10)] end.
  Definition to_string (n : nat) : str := digits (S n) n.
  Notation fmt := (list (str * nat)).
  (** [returnValue[k] = v] of a std::map; the order of the entries is of no importance here. *)
  Fixpoint assign (k : str) (v : nat) (m : fmt) : fmt :=
    match m with [] => [(k, v)] | (k', v') :: m' => if str_eqb k k' then (k', v) :: m' else (k', v') :: assign k v m' end.
  Fixpoint slot (k : str) (m : fmt) : option nat :=
    match m with [] => None | (k', v) :: m' => if str_eqb k k' then Some v else slot k m' end.
  (** m_mother, m_particleNamesPickled, m_timeDependent, m_eventTypeExtensions, m_alt_part_names and the option
      EventType::IncludeEnergy. *)
  Record eventType := { mother : str; names : list str; timeDependent : bool; extensions : list str; alt : bool; energy : bool }.
  Definition size (t : eventType) : nat := List.length (names t).
  Definition count_name (n : str) (l : list str) : nat := List.length (filter (str_eqb n) l).
  (** src/EventType.cpp:84-97. *)
  Definition parsed_name (t : eventType) (ip : nat) (n : str) : str :=
    if alt t then
      if 1 <? count_name n (names t) then n ++ to_string (count_name n (firstn ip (names t))) else n
    else S_ "_" ++ to_string (S ip) ++ S_ "_" ++ n.
  Definition stub (outputNames : bool) (t : eventType) (ip : nat) (n : str) : str :=
    if outputNames then parsed_name t ip n else to_string ip.
  Definition stride (t : eventType) : nat := if energy t then 4 else 3.
  Fixpoint momenta (o : bool) (t : eventType) (ip : nat) (l : list str) (m : fmt) : fmt :=
    match l with
    | [] => m
    | n :: rest =>
        let st := stub o t ip n in
        let m := if energy t then assign (st ++ S_ "_E") (stride t * ip + 3) m else m in
        let m := assign (st ++ S_ "_Px") (stride t * ip + 0) m in
        let m := assign (st ++ S_ "_Py") (stride t * ip + 1) m in
        let m := assign (st ++ S_ "_Pz") (stride t * ip + 2) m in
        momenta o t (S ip) rest m
    end.
  (** src/EventType.cpp:79-105; in [returnValue[extend] = returnValue.size()] the right hand side is evaluated first
      (C++17). *)
  Definition extend (m : fmt) (x : str) : fmt := assign x (List.length m) m.
  Definition getEventFormat (o : bool) (t : eventType) : fmt :=
    let m := momenta o t 0 (names t) [] in
    let m := if timeDependent t then assign (mother t ++ S_ "_decayTime") (4 * size t) m else m in
    fold_left extend (extensions t) m.
  (** src/EventType.cpp:290. *)
  Definition eventSize (t : eventType) : nat := 4 * size t + if timeDependent t then 1 else 0.
  (** The sizes of events made by EventList::resize (src/EventList.cpp:244), by PhaseSpace::makeEvent
      (src/PhaseSpace.cpp:93) and by the reader (src/EventList.cpp:83, without extra branches). *)
  Definition resized (t : eventType) : nat := 4 * size t.
  Definition made (t : eventType) : nat := 4 * size t + if timeDependent t then 1 else 0.
  Definition read (t : eventType) : nat := List.length (getEventFormat true t).
End Format.

(** ** Generation. AmpGen/Generator.h:90-160, without the vectorised list. [E] is the contents of an event. *)
Section Generate.
  Variable E : Type.
  (** [blocks b]: the contents made by the phase space generator for block b, each with the density it was made with;
      [value e]: the density of the model; [rnd k]: the k-th number drawn in the acceptance step. *)
  Variables (blocks : nat -> list (E * Q)) (value : E -> Q) (rnd : nat -> Q).
  Definition weighted (p : E * Q) : E * Q := (fst p, (value (fst p) / snd p)%Q).
  (** lines 73-88. *)
  Definition getMax (mc : list (E * Q)) : Q := fold_left (fun m p => if Qle_bool (snd p) m then m else snd p) mc 0%Q.
  Definition above (maxProb : Q) (g r : Q) : bool := negb (Qle_bool g (maxProb * r)).
  (** lines 129-143: the events of one block; [k] numbers have been drawn so far; [have] events are already new. *)
  Fixpoint accept (maxProb : Q) (N have k : nat) (mc : list (E * Q)) (list_ : list (E * Q)) : nat * nat * list (E * Q) :=
    match mc with
    | [] => (have, k, list_)
    | (e, g) :: rest =>
        let ok := above maxProb g (rnd k) in
        let have := if ok then S have else have in
        let list_ := if ok then list_ ++ [(e, value e)] else list_ in
        if have =? N then (have, S k, list_) else accept maxProb N have (S k) rest list_
    end.
  (** lines 105-152; the flag is false when the loop was left with the error "No events generated". *)
  Fixpoint loop (fuel : nat) (maxProb : Q) (N have k b : nat) (list_ : list (E * Q)) : res (list (E * Q) * bool) :=
    match fuel with
    | 0 => OutOfFuel
    | S f =>
        if have <? N then
          let mc := map weighted (blocks b) in
          let maxProb := if Qeq_bool maxProb 0 then ((3 # 2) * getMax mc)%Q else maxProb in
          let '(have', k', list') := accept maxProb N have k mc list_ in
          if have' =? have then Ok (list', false) else loop f maxProb N have' k' (S b) list'
        else Ok (list_, true)
    end.
  (** lines 90-98: without a random generator nothing is done. *)
  Definition fillEventList (fuel : nat) (rnd_set normalise : bool) (N : nat) (list_ : list (E * Q)) : res (list (E * Q) * bool) :=
    if rnd_set then loop fuel (if normalise then 0%Q else 1%Q) N 0 0 0 list_ else Ok (list_, false).
End Generate.

(** AmpGen/Generator.h:53-71: the index of the events of a block. PhaseSpace fills the numbers of the events in place;
    any other phase space overwrites the events by new ones, whose index is 0 (AmpGen/Event.h:62). *)
Definition block_indices (in_place : bool) (n : nat) : list nat := if in_place then seq 0 n else repeat 0 n.
(** AmpGen/Generator.h:138 with a density that looks its amplitudes up by event index (AmpGen/CoherentSum.h:90, src/CoherentSum.cpp:289-297):
    [values] are those of the events of the block. *)
Definition stored_density (in_place : bool) (values : list Q) (p : nat) : option Q :=
  match nth_error (block_indices in_place (List.length values)) p with Some i => nth_error values i | None => None end.
