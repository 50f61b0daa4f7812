(** Transcription of Tensor::Invert, src/Tensor.cpp:261-308. *)
From Verif.Common Require Import Prelude.
Local Open Scope nat_scope.

Section Invert.
  (** The values of the elements, exact arithmetic in a field. *)
  Variables (V : Type) (v0 v1 : V) (add mul sub : V -> V -> V) (opp : V -> V) (div : V -> V -> V).
  (** [data(i, j)] is the element [m_elements[m_symmetrisedCoordinates[i*n+j]]] (Tensor.h:88, Tensor.cpp:541): the cell of a
      pair of coordinates, [i*n+j] unless a symmetry has been imposed. *)
  Variable cell : nat -> nat -> nat.
  Definition mem := nat -> V.
  Definition get (m : mem) (i j : nat) : V := m (cell i j).
  (** One assignment [data(i, j) = f], [f] reading other elements. *)
  Record op := Op { row : nat; col : nat; rhs : (nat -> nat -> V) -> V }.
  Definition exec (m : mem) (o : op) : mem :=
    let v := rhs o (get m) in fun c => if c =? cell (row o) (col o) then v else m c.
  Definition exec_all (m : mem) (l : list op) : mem := fold_left exec l m.

  (** [for(k = a; k < b; k++) sum = sum + f(k)] from 0. *)
  Definition sum (a b : nat) (f : nat -> V) : V := fold_left (fun s k => add s (f k)) (seq a (b - a)) v0.
  (** [for(k = a; k < b; k++) sum = sum - f(k)] from 0. *)
  Definition diff (a b : nat) (f : nat -> V) : V := fold_left (fun s k => sub s (f k)) (seq a (b - a)) v0.

  (** 268-282: the decomposition. [data[i]] for i below n is [data(0, i)]. *)
  Definition lu_ops (n : nat) : list op :=
    map (fun i => Op 0 i (fun g => div (g 0 i) (g 0 0))) (seq 1 (n - 1)) ++
    flat_map (fun i =>
      map (fun j => Op j i (fun g => sub (g j i) (sum 0 i (fun k => mul (g j k) (g k i))))) (seq i (n - i)) ++
      (if i =? n - 1 then [] else
       map (fun j => Op i j (fun g => div (sub (g i j) (sum 0 i (fun k => mul (g i k) (g k j)))) (g i i))) (seq (S i) (n - S i))))
    (seq 1 (n - 1)).
  (** 283-290 *)
  Definition invert_l (n : nat) : list op :=
    flat_map (fun i =>
      Op i i (fun g => div v1 (g i i)) ::
      map (fun j => Op j i (fun g => div (diff i j (fun k => mul (g j k) (g k i))) (g j j))) (seq (S i) (n - S i))) (seq 0 n).
  (** 291-298 *)
  Definition invert_u (n : nat) : list op :=
    flat_map (fun i =>
      map (fun j => Op i j (fun g => opp (sum i j (fun k => mul (g k j) (if i =? k then v1 else g i k))))) (seq (S i) (n - S i))) (seq 0 n).
  (** 299-306 *)
  Definition final (n : nat) : list op :=
    flat_map (fun i =>
      map (fun j => Op j i (fun g => sum (Nat.max i j) n (fun k => mul (if j =? k then v1 else g j k) (g k i)))) (seq 0 n)) (seq 0 n).
  Definition decompose (n : nat) (m : mem) : mem := exec_all m (lu_ops n).
  Definition invert (n : nat) (m : mem) : mem := exec_all (exec_all (exec_all (decompose n m) (invert_l n)) (invert_u n)) (final n).
End Invert.
