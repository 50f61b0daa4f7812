(** Particles and antiparticles, spins as fractions, orders. *)
From Verif.Species Require Import Model.
From Verif.Quarks Require Import Spec.

(** [b] is the charge conjugate of [a]. The intrinsic parity of an antifermion is opposite. *)
Record conjugates (a b : entry) : Prop := {
  c_id : eid b = (- eid a)%Z; c_charge : charge b = (- charge a)%Z;
  c_sign : List.length (chargeString b) = List.length (chargeString a) /\ forall i, nth_error (chargeString b) i = option_map (fun c => if Ascii.eqb c "+" then "-"%char else if Ascii.eqb c "-" then "+"%char else c) (nth_error (chargeString a) i);
  c_quarks : Forall2 (fun x y => flavours x -> forall k, num y k = (- num x k)%Z) (quarkContent a) (quarkContent b);
  c_parity : parity b = (if Z.eqb (Z.rem (twoSpin a) 2) 1 then - parity a else parity a)%Z;
  c_rest : ename b = ename a /\ twoSpin b = twoSpin a /\ aformat b = aformat a /\ customName b = customName a /\ rest b = rest a }.

(** The entries described by the valid lines of a file. *)
Definition described (lines : list str) : list entry := flat_map (fun l => match parse_line l with Ok (Some P) => [P] | _ => [] end) lines.
(** Every line has an id of its own. *)
Definition identified (lines : list str) : Prop := NoDup (map (fun P => Z.abs (eid P)) (described lines)) /\ Forall (fun P => eid P <> 0%Z) (described lines).

Record strict_weak {A} (S : A -> Prop) (lt : A -> A -> bool) : Prop := {
  irrefl : forall a, S a -> lt a a = false;
  trans : forall a b c, S a -> S b -> S c -> lt a b = true -> lt b c = true -> lt a c = true;
  incomparable : forall a b c, S a -> S b -> S c -> lt a b = false -> lt b a = false -> lt b c = false -> lt c b = false -> lt a c = false }.

(** The number a text stands for: "n" or "n/d". *)
Inductive fraction : str -> Z -> Z -> Prop :=
| fr_int n : fraction (to_string n) (Z.of_nat n) 1
| fr_ratio n d : d <> 0 -> fraction (to_string n ++ S_ "/" ++ to_string d) (Z.of_nat n) (Z.of_nat d).
Definition denotes (s : str) (twice : Z) : Prop := exists n d, fraction s n d /\ (2 * n = twice * d)%Z.
