(** What is expected of an event read from a row of a tree, without the steps of the reading. *)
From Verif.Common Require Import Prelude.
From Coq Require Import Reals.
From Verif.Trees Require Import Model.
Local Open Scope nat_scope.
(** The value of a column, or 1 if it is not asked for or not there. *)
Definition or_one (asked : bool) (t : tree) (x : str) (row : str -> R) : R :=
  if asked then (if in_dec str_dec x (cols t) then row x else 1%R) else 1%R.
(** [conn]: which column is the value at which place; these are converted to GeV. The extra branches follow, as they are. *)
Definition read_as (a : arguments) (t : tree) (conn : str -> nat -> Prop) (row : str -> R) (e : event) : Prop :=
  List.length (vals e) = List.length (format a) + List.length (extra a) /\
  (forall x k, conn x k -> nth_error (vals e) k = Some (row x * units a)%R) /\
  (forall j x, nth_error (extra a) j = Some x -> nth_error (vals e) (List.length (format a) + j) = Some (row x)) /\
  weight e = or_one (negb (str_eqb (weightBranch a) [])) t (weightBranch a) row /\
  genPdf e = or_one (getGenPdf a) t (S_ "genPdf") row.
(** The energy of particle k belongs to its mass and momentum. *)
Definition on_shell (ms : list R) (e : event) : Prop :=
  forall k m, nth_error ms k = Some m -> exists x y z E, nth_error (vals e) (4 * k) = Some x /\ nth_error (vals e) (4 * k + 1) = Some y /\
    nth_error (vals e) (4 * k + 2) = Some z /\ nth_error (vals e) (4 * k + 3) = Some E /\ (0 <= E)%R /\ (E * E - x * x - y * y - z * z = m * m)%R.
(** The columns can be read: they exist, and no column is read twice. *)
Definition readable (a : arguments) (t : tree) (names : list str) : Prop :=
  (forall x, In x (names ++ extra a) -> In x (cols t)) /\
  NoDup (names ++ extra a ++ (if getGenPdf a then [S_ "genPdf"] else []) ++ (if str_eqb (weightBranch a) [] then [] else [weightBranch a])).
(** No ordering of the particles. *)
Definition as_read (pos : nat) (l : list R) : list R := l.
(** The column for each place: that of the name; in the order of the branches; or three branches for each particle, the place of the energy left out, and what
    follows the particles. *)
Definition named (l : list (str * nat)) (x : str) (k : nat) : Prop := In (x, k) l.
Definition in_order (l : list str) (x : str) (k : nat) : Prop := nth_error l k = Some x.
Definition momenta (l : list str) (x : str) (k : nat) : Prop := exists i c, c < 3 /\ nth_error l (3 * i + c) = Some x /\ k = 4 * i + c.
