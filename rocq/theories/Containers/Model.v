(** Containers: AmpGen/DynamicContainer.h:19-73 and AmpGen/SmallVector.h:4-36. *)
From Verif.Common Require Import Prelude Writes.
Local Open Scope nat_scope.
Section Dynamic.
  Variable T : Type.
  (** The generator: what it fills the empty buffer with when it is called for the k-th time. *)
  Variable generator : nat -> list T.
  Variable totalSize : nat.
  (** m_buffer, and how often the generator has been called. *)
  Record dynamic := Dynamic { m_buffer : list T; calls : nat }.
  (** AmpGen/DynamicContainer.h:66-70 *)
  Definition refresh (c : dynamic) : dynamic := Dynamic (generator (calls c)) (S (calls c)).
  (** AmpGen/DynamicContainer.h:55-59 *)
  Definition construct : dynamic := refresh (Dynamic [] 0).
  (** AmpGen/DynamicContainer.h:63-64, 30-31; the remainder by zero is undefined. *)
  Definition at_ (c : dynamic) (pos : nat) : res T :=
    match m_buffer c with [] => UB | b => of_opt (nth_error b (pos mod List.length b)) end.
  (** AmpGen/DynamicContainer.h:39-46; && does not use its second part if the first is false. *)
  Definition increment (c : dynamic) (pos : nat) : res (dynamic * nat) :=
    match m_buffer c with
    | [] => UB
    | b => if S pos mod List.length b =? 0 then
             match totalSize with 0 => UB | _ => Ok (if S pos mod totalSize =? 0 then c else refresh c, S pos) end
           else Ok (c, S pos)
    end.
  (** AmpGen/DynamicContainer.h:32-38, the one of constant iterators: m_pos + 1 % size is m_pos + (1 % size). *)
  Definition increment_const (c : dynamic) (pos : nat) : res (dynamic * nat) :=
    match m_buffer c with
    | [] => UB
    | b => Ok (if (pos + 1 mod List.length b =? 0) && negb (pos + 1 =? totalSize) then refresh c else c, pos + 1)
    end.
  (** for( auto it = begin(); it != end(); ++it ) with the values *it; [todo]: end() - it. *)
  Fixpoint walk (step : dynamic -> nat -> res (dynamic * nat)) (todo : nat) (c : dynamic) (pos : nat) : res (dynamic * list T) :=
    match todo with
    | 0 => Ok (c, [])
    | S n => bind (at_ c pos) (fun x => bind (step c pos) (fun s => bind (walk step n (fst s) (snd s)) (fun r => Ok (fst r, x :: snd r))))
    end.
  Definition iterate (c : dynamic) : res (dynamic * list T) := walk increment totalSize c 0.
End Dynamic.
Arguments Dynamic {T} m_buffer calls. Arguments m_buffer {T} d. Arguments calls {T} d. Arguments at_ {T} c pos. Arguments walk {T} step todo c pos.
Arguments construct {T} generator. Arguments refresh {T} generator c. Arguments increment {T} generator totalSize c pos. Arguments increment_const {T} generator totalSize c pos.
Arguments iterate {T} generator totalSize c.
Section Small.
  (** Elements of an arithmetic type; the rest of the array is zero. *)
  Variable max_size : nat.
  Record small := Small { store : list Z; size : nat }.
  Definition empty_ : small := Small (repeat 0%Z max_size) 0.
  (** AmpGen/SmallVector.h:11-13: what a loop from begin() to end() sees; behind the array it is undefined. *)
  Definition elements (v : small) : res (list Z) := if size v <=? List.length (store v) then Ok (firstn (size v) (store v)) else UB.
  (** AmpGen/SmallVector.h:18 *)
  Definition push_back (x : Z) (v : small) : res small := bind (of_opt (set_at (size v) x (store v))) (fun s => Ok (Small s (S (size v)))).
  (** AmpGen/SmallVector.h:19-26 *)
  Fixpoint copy (k : nat) (l : list Z) (s : list Z) : res (list Z) := match l with [] => Ok s | x :: r => bind (of_opt (set_at k x s)) (copy (S k) r) end.
  Definition insert (k : nat) (l : list Z) (v : small) : res small := bind (copy k l (store v)) (fun s => Ok (Small s (size v + List.length l))).
  (** AmpGen/SmallVector.h:28-31 *)
  Definition of_list (l : list Z) : res small := insert 0 l empty_.
  Fixpoint push_all (l : list Z) (v : small) : res small := match l with [] => Ok v | x :: r => bind (push_back x v) (push_all r) end.
  (** AmpGen/SmallVector.h:32-35 *)
  Definition equal (a b : small) : bool := if list_eq_dec Z.eq_dec (store b) (store a) then true else false.
End Small.
