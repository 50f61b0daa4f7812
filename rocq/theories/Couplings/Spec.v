(** Addition of angular momenta, in units of one half. *)
From Verif.Couplings Require Import Model.
Open Scope Z_scope.

(** Spins a/2 and b/2 can add up to c/2. *)
Definition triangle (a b c : Z) : Prop := Z.abs (a - b) <= c <= a + b /\ Z.even (a + b + c) = true.
(** J from daughters with total spin S and orbital angular momentum L (an integer). *)
Definition allowed (J s1 s2 : Z) (L S : Z) : Prop := 0 <= L /\ triangle s1 s2 S /\ triangle (2 * L) S J.
Definition parity_ok (p d1 d2 : state) (L : Z) : Prop := parity p = parity d1 * parity d2 * (-1) ^ L.
Definition spins_ok (p d1 d2 : state) : Prop := 0 <= twoSpin p /\ 0 <= twoSpin d1 /\ 0 <= twoSpin d2.
(** Half-integer spin in equal numbers before and after. *)
Definition statistics_ok (p d1 d2 : state) : Prop := Z.even (twoSpin p + twoSpin d1 + twoSpin d2) = true.
Definition least (Q : Z -> Prop) (n : Z) : Prop := Q n /\ forall m, Q m -> n <= m.
Definition greatest (Q : Z -> Prop) (n : Z) : Prop := Q n /\ forall m, Q m -> m <= n.
