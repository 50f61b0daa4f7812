(** Transcription of src/Tensor.cpp, AmpGen/Tensor.h: tensors of expressions. *)
From Verif.Common Require Import Prelude.
Local Open Scope nat_scope.

Definition prodn (l : list nat) : nat := fold_right Nat.mul 1 l.

(** src/Tensor.cpp:113-125. The product of the last [dim.size()-j-1] dimensions is that of the rest of the list; a product
    0 is a division by zero. Unsigned arithmetic is assumed not to wrap (the product of the dimensions fits). *)
Fixpoint index_to_coordinates (index : nat) (dim : list nat) : res (list nat) :=
  match dim with
  | [] => Ok []
  | _ :: rest =>
      let dproduct := prodn rest in
      if dproduct =? 0 then UB else
      let val := (index - index mod dproduct) / dproduct in
      bind (index_to_coordinates (index - dproduct * val) rest) (fun l => Ok (val :: l))
  end.
(** src/Tensor.cpp:127-137: from the last dimension to the first; a missing coordinate is an access out of range. *)
Fixpoint c2i_go (n : nat) (co dim : list nat) (index dproduct : nat) : res nat :=
  match n with
  | 0 => Ok index
  | S i => bind (of_opt (nth_error co i)) (fun c => bind (of_opt (nth_error dim i)) (fun d =>
             c2i_go i co dim (index + c * dproduct) (dproduct * d)))
  end.
Definition coordinates_to_index (co dim : list nat) : res nat := c2i_go (List.length dim) co dim 0 1.

Fixpoint mapM {A B} (f : A -> res B) (l : list A) : res (list B) :=
  match l with [] => Ok [] | x :: l' => bind (f x) (fun y => bind (mapM f l') (fun ys => Ok (y :: ys))) end.
Definition set_nth {A} (i : nat) (x : A) (l : list A) : res (list A) :=
  if i <? List.length l then Ok (firstn i l ++ x :: skipn (S i) l) else UB.

Section Tensor.
  (** The elements are expressions; what is modelled is their value, in a commutative ring with exact arithmetic. *)
  Variables (V : Type) (v0 v1 : V) (add mul sub : V -> V -> V) (opp : V -> V).

  (** AmpGen/Tensor.h:146-150 without [m_uniqueElements]: m_dim, m_elements, m_symmetrisedCoordinates. *)
  Record tensor := Tensor { dims : list nat; elems : list V; sym : list nat }.

  (** src/Tensor.cpp:144-147: a dimension 0 counts as 1. *)
  Definition n_elements (dim : list nat) : nat := prodn (map (fun d => if d =? 0 then 1 else d) dim).
  (** src/Tensor.cpp:25-30, 77-85 *)
  Definition zeros (dim : list nat) : tensor := Tensor dim (repeat v0 (n_elements dim)) (seq 0 (prodn dim)).
  (** src/Tensor.cpp:87-106, 539-543: element by position, by coordinates; assignment by position. *)
  Definition at_ (t : tensor) (i : nat) : res V := bind (of_opt (nth_error (sym t) i)) (fun k => of_opt (nth_error (elems t) k)).
  Definition at_co (t : tensor) (co : list nat) : res V := bind (coordinates_to_index co (dims t)) (at_ t).
  Definition put_at (t : tensor) (i : nat) (v : V) : res tensor :=
    bind (of_opt (nth_error (sym t) i)) (fun k => bind (set_nth k v (elems t)) (fun e => Ok (Tensor (dims t) e (sym t)))).
  Fixpoint put_all (t : tensor) (i : nat) (f : nat -> res V) (n : nat) : res tensor :=
    match n with 0 => Ok t | S n' => bind (f i) (fun v => bind (put_at t i v) (fun t' => put_all t' (S i) f n')) end.

  (** src/Tensor.cpp:64-70 *)
  Definition sgn (b : bool) : V := if b then v1 else opp v1.
  Definition metric_sgn (co : list nat) : V := fold_left (fun p c => mul p (sgn (c =? 3))) co v1.

  (** Tensor.h:33-46: an index is a shared cell (its identity) with a flag up or down. *)
  Definition index := (nat * bool)%type.
  Definition same (a b : index) : bool := fst a =? fst b.
  Record proxy := Proxy { ten : tensor; idx : list index }.

  (** src/Tensor.cpp:365-370, 403-405 *)
  Record contractor := Contr { ci : nat; cj : nat; up_down : bool }.
  Fixpoint find_pos (a : index) (l : list index) (i : nat) : option (nat * index) :=
    match l with [] => None | b :: l' => if same b a then Some (i, b) else find_pos a l' (S i) end.
  (** src/Tensor.cpp:390-407 *)
  Definition free1 (t1 t2 : list index) (d1 : list nat) : list (index * nat) :=
    filter (fun p => match find_pos (fst p) t2 0 with None => true | Some _ => false end) (combine t1 d1).
  Definition free2 (t1 t2 : list index) (d2 : list nat) : list (index * nat) :=
    filter (fun p => match find_pos (fst p) t1 0 with None => true | Some _ => false end) (combine t2 d2).
  Fixpoint contractions (t1 t2 : list index) (i : nat) : list contractor :=
    match t2 with
    | [] => []
    | b :: t2' =>
        match find_pos b t1 0 with
        | None => contractions t1 t2' (S i)
        | Some (k, a) => Contr k i (negb (Bool.eqb (snd b) (snd a))) :: contractions t1 t2' (S i)
        end
    end.

  (** src/Tensor.cpp:419-436: the coordinates that are not summed. The loops are do-while loops: with no index at all
      the first turn writes outside the vector. *)
  Fixpoint fill (contracted : nat -> bool) (coords : list nat) (i j n : nat) : res (list nat) :=
    match n with
    | 0 => Ok []
    | S n' =>
        if contracted i then bind (fill contracted coords (S i) j n') (fun l => Ok (0 :: l))
        else bind (of_opt (nth_error coords j)) (fun c => bind (fill contracted coords (S i) (S j) n') (fun l => Ok (c :: l)))
    end.
  Definition fill_do (contracted : nat -> bool) (coords : list nat) (j size : nat) : res (list nat) :=
    if size =? 0 then UB else fill contracted coords 0 j size.

  (** src/Tensor.cpp:442-445 *)
  Fixpoint set_contracted (cs : list contractor) (cc : list nat) (c1 c2 : list nat) (sign : V) : res (list nat * list nat * V) :=
    match cs, cc with
    | [], _ => Ok (c1, c2, sign)
    | c :: cs', k :: cc' =>
        bind (set_nth (ci c) k c1) (fun c1' => bind (set_nth (cj c) k c2) (fun c2' =>
          set_contracted cs' cc' c1' c2' (mul sign (if k =? 3 then v1 else sgn (negb (up_down c))))))
    | _ :: _, [] => UB
    end.
  (** src/Tensor.cpp:438-447 *)
  Fixpoint sum_loop (t1 t2 : tensor) (cs : list contractor) (cdim : list nat) (m n : nat) (c1 c2 : list nat) (acc : V) : res V :=
    match n with
    | 0 => Ok acc
    | S n' =>
        bind (index_to_coordinates m cdim) (fun cc =>
        bind (set_contracted cs cc c1 c2 v1) (fun r => let '(c1', c2', sign) := r in
        bind (at_co t1 c1') (fun a => bind (at_co t2 c2') (fun b =>
          sum_loop t1 t2 cs cdim (S m) n' c1' c2' (add acc (mul (mul sign a) b))))))
    end.
  (** src/Tensor.cpp:373-451 *)
  Definition proxy_mul (p1 p2 : proxy) : res proxy :=
    let t1 := ten p1 in let t2 := ten p2 in
    let cs := contractions (idx p1) (idx p2) 0 in
    let fr := free1 (idx p1) (idx p2) (dims t1) ++ free2 (idx p1) (idx p2) (dims t2) in
    let final := map snd fr in
    bind (mapM (fun c => of_opt (nth_error (dims t1) (ci c))) cs) (fun cdim =>
    bind (put_all (zeros final) 0 (fun elem =>
      bind (index_to_coordinates elem final) (fun coords =>
      bind (fill_do (fun i => existsb (fun c => ci c =? i) cs) coords 0 (List.length (idx p1))) (fun c1 =>
      bind (fill_do (fun i => existsb (fun c => cj c =? i) cs) coords (List.length (idx p1) - List.length cs) (List.length (idx p2))) (fun c2 =>
        sum_loop t1 t2 cs cdim 0 (prodn cdim) c1 c2 v0)))) (n_elements final)) (fun value =>
    Ok (Proxy value (map fst fr)))).
End Tensor.
Arguments dims {V} t. Arguments elems {V} t. Arguments sym {V} t. Arguments Tensor {V}.
Arguments ten {V} p. Arguments idx {V} p. Arguments Proxy {V}.
Arguments at_ {V} t i. Arguments at_co {V} t co. Arguments put_at {V} t i v.
