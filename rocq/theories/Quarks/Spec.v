(** Flavour numbers. *)
From Verif.Quarks Require Import Model.

(** Six numbers. *)
Definition flavours (q : qstate) : Prop := List.length q = 6.
Definition contents (a : content) : Prop := a <> [] /\ Forall flavours a.
Definition num (q : qstate) (k : nat) : Z := nth k q 0%Z.
Definition occurrences (c : ascii) (s : str) : Z := Z.of_nat (count_occ ascii_dec s c).
Definition upper_name (k : nat) : ascii := nth k ["D"; "U"; "S"; "C"; "B"; "T"]%char " "%char.
Definition lower_name (k : nat) : ascii := nth k ["d"; "u"; "s"; "c"; "b"; "t"]%char " "%char.

(** The flavour numbers a particle can have: those listed, and for a non-resonant one the sum of what its daughters can have. *)
Inductive flavour : particle -> qstate -> Prop :=
| fl_own own ds x : In x own -> flavour (Part false own ds) x
| fl_sum own ds xs x : Forall2 flavour ds xs -> flavours x -> (forall k, num x k = fold_right Z.add 0%Z (map (fun y => num y k) xs)) -> flavour (Part true own ds) x.

Fixpoint listed (p : particle) : Prop := match p with Part _ own ds => contents own /\ fold_right (fun d P => listed d /\ P) True ds end.
