(** Transcription of AmpGen::LeviCivita, src/Tensor.cpp:602-624. *)
From Verif.Common Require Import Prelude.
From Verif.Tensor Require Import Model.
Local Open Scope nat_scope.

(** [int] arithmetic: a result outside 32 bits is undefined. *)
Definition int_mul (a b : Z) : res Z :=
  let p := (a * b)%Z in if ((- 2147483648 <=? p) && (p <=? 2147483647))%Z then Ok p else UB.
(** The factors of [permutation_sign] in the order of the two loops (608-616). *)
Fixpoint factors (l : list nat) : list Z :=
  match l with [] => [] | x :: r => map (fun y => (Z.of_nat x - Z.of_nat y)%Z) r ++ factors r end.
Fixpoint product_of (l : list Z) (acc : Z) : res Z :=
  match l with [] => Ok acc | f :: l' => bind (int_mul acc f) (fun a => product_of l' a) end.
(** src/Tensor.cpp:608-616. With no index [permutation.size() - 1] wraps and the loop runs through 2^64 values. *)
Definition permutation_sign (l : list nat) : res Z :=
  match l with [] => OutOfFuel | _ => product_of (factors l) 1%Z end.

(** The sequences met by [do ... while ( std::next_permutation(...) )] from the sorted sequence: by the contract of the
    standard library, all permutations, each once, in lexicographic order. *)
Fixpoint perms (n : nat) (l : list nat) : list (list nat) :=
  match n with
  | 0 => [[]]
  | S n' => flat_map (fun x => map (cons x) (perms n' (remove Nat.eq_dec x l))) l
  end.

(** src/Tensor.cpp:619-622; assigning an [int] to an element makes the constant of that value. Division of [int]s
    truncates; by 0 is undefined. *)
Fixpoint levi_loop (p0 : Z) (todo : list (list nat)) (t : tensor Z) : res (tensor Z) :=
  match todo with
  | [] => Ok t
  | co :: todo' =>
      bind (coordinates_to_index co (dims t)) (fun id => bind (of_opt (nth_error (sym t) id)) (fun index =>
      bind (permutation_sign co) (fun p => if (p0 =? 0)%Z then UB else
      bind (put_at t index (Z.quot p p0)) (fun t' => levi_loop p0 todo' t'))))
  end.
Definition levi_civita (rank : nat) : res (tensor Z) :=
  let indices := seq 0 rank in
  bind (permutation_sign indices) (fun p0 => levi_loop p0 (perms rank indices) (zeros Z 0%Z (repeat rank rank))).
