(** Ordering of decay products: src/Particle.cpp:807-823 (comparison), 674-688 (sorting and conjugation in place),
    314-323 (descriptor), 690-700 is C51's. *)
From Verif.Common Require Export Prelude.

(** The part of ParticleProperties that is used here. Masses are only compared with one another, so an integer
    scale stands for the doubles; NaN is not covered. [distinct] is hasDistinctAnti(). *)
Record props := Props { pname : str; pid : Z; twoSpin : Z; mass : Z; charge : Z; distinct : bool }.

(** A Particle: its properties, index() (999 when unset), the modifier text printed by modifierString() (299-312,
    kept as a text: neither sorting nor conjugating changes what it is made from), and its daughters.
    The shared pointers to daughters are a tree: constructors make each daughter afresh. *)
Inductive particle := Part (p : props) (index : nat) (modifiers : str) (daughters : list particle).
Definition props_of (a : particle) := let '(Part p _ _ _) := a in p.
Definition index (a : particle) := let '(Part _ i _ _) := a in i.
Definition daughters (a : particle) := let '(Part _ _ _ d) := a in d.
(** src/Particle.cpp:778 *)
Definition isStable (a : particle) : bool := match daughters a with [] => true | _ => false end.

(** src/Particle.cpp:807-818; spin() is twoSpin/2, compared as such. *)
Definition less (a b : particle) : bool :=
  let p := props_of a in let q := props_of b in
  if negb (Z.eqb (twoSpin p) (twoSpin q)) then Z.ltb (twoSpin q) (twoSpin p)
  else if negb (isStable a) && isStable b then true
  else if isStable a && negb (isStable b) then false
  else if negb (Z.eqb (mass p) (mass q)) then Z.ltb (mass q) (mass p)
  else if Z.eqb (Z.abs (pid p)) (Z.abs (pid q)) && negb (Z.eqb (pid p) (pid q)) then Z.ltb (pid q) (pid p)
  else if negb (Z.eqb (charge p) (charge q)) then Z.ltb (charge q) (charge p)
  else if negb (Z.eqb (pid p) (pid q)) then Z.ltb (pid q) (pid p)
  else Nat.ltb (index a) (index b).
(** src/Particle.cpp:820-823 *)
Definition greater (a b : particle) : bool := negb (less a b).

(** std::stable_sort (678): the stable insertion sort. For an order that is strict and weak every stable sort gives
    this list (proved: C53_unique); otherwise the library call is undefined. *)
Fixpoint insert (x : particle) (l : list particle) : list particle :=
  match l with [] => [x] | y :: r => if less y x then y :: insert x r else x :: y :: r end.
Definition stable_sort (l : list particle) : list particle := fold_right insert [] l.

(** src/Particle.cpp:683-688; [get] is ParticlePropertiesList::get by id, null when there is none; the next use of a
    null m_props is undefined. *)
Definition conj_props (get : Z -> option props) (p : props) : res props := if distinct p then of_opt (get (- pid p)%Z) else Ok p.
Fixpoint conjThis (get : Z -> option props) (a : particle) : res particle :=
  let '(Part p i m ds) := a in
  bind (conj_props get p) (fun p' =>
  bind ((fix conj_all (l : list particle) : res (list particle) :=
           match l with [] => Ok [] | d :: r => bind (conjThis get d) (fun d' => bind (conj_all r) (fun r' => Ok (d' :: r'))) end) ds)
       (fun ds' => Ok (Part p' i m ds'))).
Fixpoint conj_all (get : Z -> option props) (l : list particle) : res (list particle) :=
  match l with [] => Ok [] | d :: r => bind (conjThis get d) (fun d' => bind (conj_all get r) (fun r' => Ok (d' :: r'))) end.

(** src/Particle.cpp:674-681 *)
Definition sorted_daughters (a : particle) : particle := let '(Part p i m ds) := a in Part p i m (stable_sort ds).
Definition sortDaughters (get : Z -> option props) (a : particle) : res particle :=
  if Z.ltb (pid (props_of a)) 0
  then bind (conjThis get a) (fun a' => conjThis get (sorted_daughters a'))
  else Ok (sorted_daughters a).

(** AmpGen/Utilities.h:25-36 with the delimiter "," *)
Fixpoint join (l : list str) : str := match l with [] => [] | [s] => s | s :: r => s ++ S_ "," ++ join r end.
(** src/Particle.cpp:314-323 *)
Fixpoint descriptor (a : particle) : str :=
  let '(Part p _ m ds) := a in
  match ds with
  | [] => pname p ++ m
  | _ => pname p ++ m ++ S_ "{" ++ join (map descriptor ds) ++ S_ "}"
  end.
