(** What storing and registering are meant to do. *)
From Verif.Common Require Import Prelude.
From Verif.Store Require Import Model.
Local Open Scope nat_scope.

(** Calls on a store. *)
Inductive call (V : Type) := Add (n : str) (size : nat) | Resize (entries : nat) | Resize2 (entries fields : nat) | Clear
  | Allocate (entries : nat) (fs : list (str * nat)) | Put (index field : nat) (v : V).
Arguments Add {V}. Arguments Resize {V}. Arguments Resize2 {V}. Arguments Clear {V}. Arguments Allocate {V}. Arguments Put {V}.

Section Spec.
  Variables (V : Type) (v0 : V) (al : layout) (w : nat).
  Definition step (c : call V) (s : store V) : res (store V) :=
    match c with
    | Add n size => Ok (add_functor V n size s)
    | Resize e => Ok (resize V v0 w e s)
    | Resize2 e f => Ok (resize2 V v0 w e f s)
    | Clear => Ok (clear V s)
    | Allocate e fs => Ok (allocate V v0 w e fs s)
    | Put i f v => write V al s i f v
    end.
  Fixpoint run (h : list (call V)) (s : store V) : res (store V) :=
    match h with [] => Ok s | c :: h' => bind (step c s) (run h') end.
  (** Nothing registered or cleared since the storage was last sized (the constructor sizes it). *)
  Fixpoint up_to_date (h : list (call V)) (b : bool) : bool :=
    match h with
    | [] => b
    | Add _ _ :: h' | Clear :: h' => up_to_date h' false
    | Resize _ :: h' | Resize2 _ _ :: h' | Allocate _ _ :: h' => up_to_date h' true
    | Put _ _ _ :: h' => up_to_date h' b
    end.
End Spec.

(** The size given with the first registration of a name. *)
Fixpoint first_size (n : str) (fs : list (str * nat)) : option nat :=
  match fs with [] => None | (k, v) :: l => if str_dec k n then Some v else first_size n l end.
