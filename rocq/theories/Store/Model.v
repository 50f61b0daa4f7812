(** Transcription of AmpGen/Store.h: the storage of evaluated functions. *)
From Verif.Common Require Import Prelude Writes.
Local Open Scope nat_scope.

(** AmpGen/Store.h:13-15 *)
Inductive layout := SoA | AoS.

(** The conversion to [unsigned]. *)
Definition unsigned_of (n : nat) : nat := N.to_nat (N.of_nat n mod 4294967296).
(** AmpGen/Store.h:23, AmpGen/simd/utils.h:73-75: aligned_size / size with [w] values per block. With no entry [nEntries - 1]
    wraps to 2^64 - 1 and the conversion to [unsigned] gives 0 for w = 1, 2, 4, 8. *)
Definition blocks (w n : nat) : nat := if n =? 0 then 0 else unsigned_of (1 + (n - 1) / w).

Section Store.
  (** [V]: one stored_type (a block of [w] values); [v0]: the value of new elements of the vector. *)
  Variables (V : Type) (v0 : V) (al : layout) (w : nat).

  (** AmpGen/Store.h:109-113 *)
  Record store := Store { n_entries : nat; n_blocks : nat; n_fields : nat; cells : list V; names : list (str * list nat) }.
  (** AmpGen/Store.h:21-25 *)
  Definition construct (entries fields : nat) : store :=
    Store entries (blocks w entries) fields (repeat v0 (blocks w entries * fields)) [].
  (** [m_index.find]: a map has one entry per name. *)
  Fixpoint lookup (n : str) (l : list (str * list nat)) : option (list nat) :=
    match l with [] => None | (k, v) :: l' => if str_eqb k n then Some v else lookup n l' end.
  (** AmpGen/Store.h:29-39; [size] is returnTypeSize() / sizeof(stored_type). *)
  Definition add_functor (n : str) (size : nat) (s : store) : store :=
    match lookup n (names s) with
    | Some _ => s
    | None => Store (n_entries s) (n_blocks s) (n_fields s + size) (cells s) ((n, seq (n_fields s) size) :: names s)
    end.
  (** [std::vector::resize] *)
  Definition vresize (l : list V) (n : nat) : list V := firstn n l ++ repeat v0 (n - List.length l).
  (** AmpGen/Store.h:101-107 *)
  Definition resize (entries : nat) (s : store) : store :=
    Store entries (blocks w entries) (n_fields s) (vresize (cells s) (blocks w entries * n_fields s)) (names s).
  (** AmpGen/Store.h:84-91 *)
  Definition resize2 (entries fields : nat) (s : store) : store :=
    Store entries (blocks w entries) fields (vresize (cells s) (blocks w entries * fields)) [].
  (** AmpGen/Store.h:92 *)
  Definition clear (s : store) : store := Store (n_entries s) (n_blocks s) (n_fields s) [] [].
  (** AmpGen/Store.h:51-55, 126-133 *)
  Definition allocate (entries : nat) (fs : list (str * nat)) (s : store) : store :=
    resize entries (fold_left (fun s f => add_functor (fst f) (snd f) s) fs s).

  (** AmpGen/Store.h:66-70, 78-82 *)
  Definition address (s : store) (index field : nat) : nat :=
    match al with SoA => field * n_blocks s + index | AoS => index * n_fields s + field end.
  Definition read (s : store) (index field : nat) : res V := of_opt (nth_error (cells s) (address s index field)).
  Definition write (s : store) (index field : nat) (v : V) : res store :=
    bind (of_opt (set_at (address s index field) v (cells s))) (fun c =>
      Ok (Store (n_entries s) (n_blocks s) (n_fields s) c (names s))).
  (** AmpGen/Store.h:93-96 *)
  Fixpoint store_item (event : nat) (index : list nat) (item : list V) (s : store) : res store :=
    match index, item with
    | [], _ => Ok s
    | f :: index', v :: item' => bind (write s event f v) (store_item event index' item')
    | _ :: _, [] => UB
    end.
  (** AmpGen/Store.h:149-151, 185-205 (the loop over events, in any order [evts] because of the parallel for): [fcn evt] are
      the values for an event, as many as the function has fields; an unknown name dereferences end(). *)
  Fixpoint update_loop (evts : list nat) (fcn : nat -> list V) (f : list nat) (s : store) : res store :=
    match evts with [] => Ok s | e :: evts' => bind (store_item e f (fcn e) s) (update_loop evts' fcn f) end.
  Definition update (evts : list nat) (n : str) (fcn : nat -> list V) (s : store) : res store :=
    bind (of_opt (lookup n (names s))) (fun f => match f with [] => UB | _ => update_loop evts fcn f s end).
End Store.
Arguments n_entries {V} s. Arguments n_blocks {V} s. Arguments n_fields {V} s. Arguments cells {V} s. Arguments names {V} s.
Arguments Store {V}.

(** AmpGen/Store.h:71-75: the value of event [index], the lane [index % w] of block [index / w]. *)
Definition get {L : Type} (al : layout) (w : nat) (s : store (list L)) (index field : nat) : res L :=
  bind (read (list L) al s (index / w) field) (fun b => of_opt (nth_error b (index mod w))).
