(** What the parameters of the model are, and what a binning should do. *)
From Verif.Binning Require Export Model.
From Coq Require Export Sorting.Sorted Permutation.
Local Open Scope nat_scope.

(** std::sort with the comparison of one coordinate: some rearrangement in ascending order. *)
Definition sorts_by (sort : nat -> list event -> list event) : Prop :=
  forall i l, Permutation (sort i l) l /\ StronglySorted (fun a b => (at_ a i <= at_ b i)%Q) (sort i l).
(** Some order of the coordinates. *)
Definition orders (d : nat) (by_variance : list event -> list nat) : Prop :=
  forall l, Permutation (by_variance l) (seq 0 d).
(** A usable configuration: at least one coordinate, at least one event per bin, an ordering of valid coordinates. *)
Definition usable (c : conf) : Prop :=
  0 < dim c /\ 0 < minEvents c /\
  (ordering c = [] \/ dim c <= List.length (ordering c) /\ Forall (fun i => i < dim c) (ordering c)).
Definition complete (d : nat) (l : list event) : Prop := Forall (fun e => d <= List.length e) l.
(** No two events agree in a coordinate. *)
Definition distinct (d : nat) (l : list event) : Prop := forall i, i < d -> NoDup (map (fun e => Qred (at_ e i)) l).
(** No event lies exactly half way between two others, or on another one, in a coordinate. *)
Definition unaligned (d : nat) (l : list event) : Prop :=
  forall i a b e l', i < d -> Permutation l (a :: b :: e :: l') -> ~ (at_ a i + at_ e i == at_ b i + at_ b i)%Q.

(** The point [e] falls into bin number [b]. *)
Definition falls (t : tree) (b : nat) (e : event) : bool :=
  match lookup t e with Ok (v, _) => v =? b | _ => false end.
Definition falls_fast (nodes : list node) (b : nat) (e : event) : bool :=
  match findNode nodes e with Ok v => v =? b | _ => false end.
(** Each bin holds just the sample events that fall into it. *)
Definition agrees (falls : nat -> event -> bool) (sample : list event) (ends : list (list event)) : Prop :=
  forall b held, nth_error ends b = Some held -> Permutation held (filter (falls b) sample).

(** A printed word: no blank, no end of line, not empty. *)
Definition word (s : str) : Prop := s <> [] /\ ~ In sp s /\ ~ In nl s /\ s <> ["009"%char].
(** The tree is in memory: its nodes have different addresses. *)
Fixpoint addresses (o : obj) : list str :=
  match o with OEnd a _ _ => [a] | OCut a _ _ l r => a :: addresses l ++ addresses r end.
(** Every number in the tree can be printed and read back. *)
Fixpoint readable_obj (shown : nat -> str) (stoi : str -> option nat) (showd : Q -> str) (stod : str -> option Q) (o : obj) : Prop :=
  match o with
  | OEnd a v b => word a /\ word (shown v) /\ word (shown b) /\ stoi (shown v) = Some v /\ stoi (shown b) = Some b
  | OCut a i v l r =>
      word a /\ word (shown i) /\ word (showd v) /\ stoi (shown i) = Some i /\ stod (showd v) = Some v /\
      readable_obj shown stoi showd stod l /\ readable_obj shown stoi showd stod r
  end.
