(** Model of [AmpGen::ASTResolver]: ordering of the common sub-expressions and addresses of the cached parameters.
    Source: src/ASTResolver.cpp, AmpGen/ASTResolver.h, src/Expression.cpp. *)
From Verif.Common Require Import Prelude.

(** A [SubTree] node (Expression.h, class SubTree): the address of the expression it wraps
    ([subTree.expression().get()]), its key, and the wrapped expression. An expression is represented by the list of the
    [SubTree] nodes met when it is traversed by [resolve] (left to right, not entering the [SubTree]s): the operators
    and leaves in between only pass the call on. Keys (64-bit hashes) and addresses are numbers. *)
Inductive sub := Sub (ptr key : nat) (inner : list sub).
Definition ptr_of (s : sub) := match s with Sub p _ _ => p end.
Definition key_of (s : sub) := match s with Sub _ k _ => k end.
Definition inner_of (s : sub) := match s with Sub _ _ l => l end.

(** [std::map] with number keys, as an association list in increasing order of key: look-up and
    [m[k] = v]. *)
Fixpoint look {V} (k : nat) (m : list (nat * V)) : option V :=
  match m with [] => None | (k', v) :: m' => if k =? k' then Some v else look k m' end.
Fixpoint put {V} (k : nat) (v : V) (m : list (nat * V)) : list (nat * V) :=
  match m with
  | [] => [(k, v)]
  | (k', v') :: m' => if k =? k' then (k, v) :: m' else if k <? k' then (k, v) :: (k', v') :: m' else (k', v') :: put k v m'
  end.

(** src/ASTResolver.cpp:67-75: [resolve<SubTree>]. [tmp] is [m_tempTrees] (address of the inner expression to the
    [SubTree]). *)
Fixpoint resolve (s : sub) (tmp : list (nat * sub)) : list (nat * sub) :=
  match s with
  | Sub p k l =>
      match look p tmp with
      | Some _ => tmp
      | None => put p s (fold_left (fun t s' => resolve s' t) l tmp)
      end
  end.
(** src/ASTResolver.cpp:30,46: [expression.resolve]. *)
Definition resolve_expr (l : list sub) (tmp : list (nat * sub)) := fold_left (fun t s => resolve s t) l tmp.

(** src/ASTResolver.cpp:34-43: [subTrees], the first [SubTree] of each key in order of address. *)
Definition sub_trees (tmp : list (nat * sub)) : list (nat * list sub) :=
  fold_left (fun m ts => let s := snd ts in
    match look (key_of s) m with None => put (key_of s) (inner_of s) m | Some _ => m end) tmp [].

(** src/ASTResolver.cpp:57-60: the positions behind the moved element go down by one. [used] is [used_functions]. The
    decrement of position 0 (only for the moved key itself) wraps in the code; the value is overwritten. *)
Definition shift_down (old : nat) (used : list (nat * nat)) : list (nat * nat) :=
  map (fun kv => (fst kv, if old <=? snd kv then snd kv - 1 else snd kv)) used.

(** src/ASTResolver.cpp:45-61: one turn of the inner loop; the state is [m_tempTrees], [subexpressions] and
    [used_functions]. Moving an iterator outside the vector is UB. *)
Definition state := (list (nat * sub) * list (nat * list sub) * list (nat * nat))%type.
Definition visit (st : state) (kt : nat * list sub) : res state :=
  let '(tmp, subs, used) := st in
  let '(key, e) := kt in
  let tmp := resolve_expr e tmp in
  match look key used with
  | None => Ok (tmp, subs ++ [(key, e)], put key (List.length subs) used)
  | Some old =>
      match nth_error subs old with
      | None => UB
      | Some x =>
          if old =? List.length subs - 1 then Ok (tmp, subs, used)
          else Ok (tmp, firstn old subs ++ skipn (S old) subs ++ [x], put key (List.length subs - 1) (shift_down old used))
      end
  end.
Fixpoint visits (st : state) (l : list (nat * list sub)) : res state :=
  match l with [] => Ok st | kt :: l' => bind (visit st kt) (fun st' => visits st' l') end.

(** src/ASTResolver.cpp:33-62: the outer loop. *)
Fixpoint rounds (fuel : nat) (st : state) : res (list (nat * list sub)) :=
  match fuel with
  | 0 => OutOfFuel
  | S f =>
      let '(tmp, subs, used) := st in
      let trees := sub_trees tmp in
      bind (visits ([], subs, used) trees) (fun st' =>
        match trees with [] => Ok (snd (fst st')) | _ => rounds f st' end)
  end.
(** src/ASTResolver.cpp:26-65: [getOrderedSubExpressions], from an empty [m_tempTrees] (the loop leaves it empty). *)
Definition ordered (fuel : nat) (e : list sub) : res (list (nat * list sub)) :=
  bind (rounds fuel (resolve_expr e [], [], [])) (fun l => Ok (rev l)).

(** ** Addresses of cached functions *)
(** [m_cacheFunctions] (name to address and size) in order of registration, and [m_nParameters], a count that is assumed
    not to exceed the range of [unsigned int]. *)
Record cache := Cache { entries : list (str * (nat * nat)); n_params : nat }.
Definition empty_cache := Cache [] 0.
Fixpoint find_entry (n : str) (l : list (str * (nat * nat))) : option (nat * nat) :=
  match l with [] => None | (m, v) :: l' => if str_eqb n m then Some v else find_entry n l' end.
(** AmpGen/ASTResolver.h:34-42: [addCacheFunction]; [size] is the [size()] of the object that would be made (1 for
    CacheTransfer, ParameterTransfer, LambdaTransfer: CacheTransfer.h:26,48,62; twice the number of knots for
    SplineTransfer: Spline.h:33). The result is the address. *)
Definition add_cache (n : str) (size : nat) (c : cache) : nat * cache :=
  match find_entry n (entries c) with
  | Some (a, _) => (a, c)
  | None => (n_params c + size - size, Cache (entries c ++ [(n, (n_params c, size))]) (n_params c + size))
  end.
(** What [resolve] asks for: a named function of a size (ASTResolver.cpp:80,118,127,139) or a function object, whose
    name is made from the number of parameters so far (ASTResolver.cpp:145). *)
Inductive request := Named (n : str) (size : nat) | Lambda.
Fixpoint digits (fuel n : nat) : str :=
  match fuel with
  | 0 => []
  | S f => (if n <? 10 then [] else digits f (n / 10)) ++ [ascii_of_nat (48 + n mod 10)]
  end.
Definition to_text (n : nat) : str := digits (S n) n.
Definition request_name (r : request) (c : cache) : str :=
  match r with Named n _ => n | Lambda => S_ "lxpr_" ++ to_text (n_params c) end.
Definition request_size (r : request) : nat := match r with Named _ s => s | Lambda => 1 end.
(** A sequence of registrations: the addresses given out, each with the name and the size asked for. *)
Fixpoint register (l : list request) (c : cache) : list (str * nat * nat) * cache :=
  match l with
  | [] => ([], c)
  | r :: l' =>
      let n := request_name r c in
      let (a, c1) := add_cache n (request_size r) c in
      let (given, c2) := register l' c1 in ((n, a, request_size r) :: given, c2)
  end.
