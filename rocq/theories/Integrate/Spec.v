(** Dividing a region, without reference to the code. *)
From Verif.Common Require Import Prelude.
From Coq Require Import Reals Permutation.
Local Open Scope R_scope.

(** A region: its centre and its half widths. Both halves of it in direction j. *)
Definition region : Type := list R * list R.
Fixpoint change (f : R -> R) (j : nat) (l : list R) : list R :=
  match l, j with [], _ => [] | x :: r, O => f x :: r | x :: r, S k => x :: change f k r end.
Definition lower (j : nat) (r : region) : region := (change (fun x => x - nth j (snd r) 0 / 2) j (fst r), change (fun w => w / 2) j (snd r)).
Definition upper (j : nat) (r : region) : region := (change (fun x => x + nth j (snd r) 0 / 2) j (fst r), change (fun w => w / 2) j (snd r)).
(** Points of a region; points inside *)
Definition within (r : region) (x : list R) : Prop := Forall2 (fun x cw => Rabs (x - fst cw) <= snd cw) x (combine (fst r) (snd r)).
Definition inside (r : region) (x : list R) : Prop := Forall2 (fun x cw => Rabs (x - fst cw) < snd cw) x (combine (fst r) (snd r)).
Definition box (lo hi : list R) : region := (map (fun p => (fst p + snd p) / 2) (combine lo hi), map (fun p => (snd p - fst p) / 2) (combine lo hi)).

Section Adaptive.
  (** A rule estimates the integral over a region, its error, and says in which direction to divide. *)
  Variable val err : region -> R.
  Variable axis : region -> nat.
  Definition total (f : region -> R) (l : list region) : R := fold_right Rplus 0 (map f l).
  (** The estimate is good to ten digits. *)
  Definition good (l : list region) : Prop := if Req_EM_T (total val l) 0 then total err l < / 10 ^ 10 else total err l / Rabs (total val l) < / 10 ^ 10.
  (** Divisions of a region: while the estimate is not good, or nothing has been divided yet, the region with the largest error is divided. *)
  Inductive divided (whole : region) : list region -> Prop :=
  | divided_not : divided whole [whole]
  | divided_once l r rest : divided whole l -> ~ (good l /\ (1 < List.length l)%nat) -> Permutation l (r :: rest) -> (forall r', In r' l -> err r' <= err r) ->
      divided whole (lower (axis r) r :: upper (axis r) r :: rest).
End Adaptive.

(** How much f bends in direction j over the region: a fourth difference over the distances p and q *)
Definition moved (c w : list R) (j : nat) (t : R) : list R := change (fun x => x + t * nth j w 0) j c.
Definition bend (p q : R) (f : list R -> R) (c w : list R) (j : nat) : R :=
  Rabs (7 * (f (moved c w j (- p)) + f (moved c w j p)) - (f (moved c w j (- q)) + f (moved c w j q)) - 12 * f c).
(** How often a rule of this kind evaluates the function *)
Definition points (n : nat) : Z := (2 ^ Z.of_nat n + 2 * Z.of_nat n * (Z.of_nat n + 1) + 1)%Z.
(** Every point of the whole is in a part, every point of a part in the whole, and no point is inside two parts. *)
Definition tiles (whole : region) (l : list region) : Prop :=
  (forall x, within whole x <-> exists r, In r l /\ within r x) /\
  (forall l1 l2 l3 r r' x, l = l1 ++ r :: l2 ++ r' :: l3 -> inside r x -> ~ inside r' x).
(** The volume of a region, from its half widths *)
Fixpoint vol (w : list R) : R := match w with nil => 1 | x :: r => 2 * x * vol r end.
