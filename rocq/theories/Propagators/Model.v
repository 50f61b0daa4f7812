(** The product of lineshapes of a decay: src/Particle.cpp:361-385; AmpGen/Factory.h:19-48; src/Lineshapes.cpp:96-134; AmpGen/Lineshapes.h:44-80 (the two
    kinds of lineshapes); src/Lineshapes/EtaDalitz.cpp:28-29. Complex numbers stand for the expressions; make_cse and the debugging output are left out. *)
From Verif.Common Require Import Prelude.
From Coq Require Import Reals.
From Coquelicot Require Import Hierarchy Complex.
From Verif.Utilities Require Import Model.
From Verif.Descriptor Require Model.
Local Open Scope nat_scope.
(** What is used of a Particle: name, m_lineshape, massSq(), L() and the daughters. *)
Inductive particle := Particle (name shape : str) (s : R) (L : nat) (daughters : list particle).
Definition shape (p : particle) : str := match p with Particle _ x _ _ _ => x end.
Definition massSq (p : particle) : R := match p with Particle _ _ s _ _ => s end.
Definition daughters (p : particle) : list particle := match p with Particle _ _ _ _ ds => ds end.
(** AmpGen/Lineshapes.h:44-80: DEFINE_LINESHAPE has a function of s, s1, s2, the name, L and the modifier, DEFINE_GENERIC_SHAPE one of the particle and
    the modifier, which may use the factory. *)
Inductive lineshape :=
| TwoBody (f : R -> R -> R -> str -> nat -> str -> res C)
| Generic (f : (str -> particle -> res C) -> particle -> str -> res C).
Definition registry := list (str * lineshape).
(** AmpGen/Factory.h:33-48: the map with its keys; [] of the map replaces. *)
Definition lookup (m : registry) (k : str) : option lineshape := option_map snd (find (fun e => str_eqb (fst e) k) m).
Definition Register (k : str) (e : lineshape) (m : registry) : registry := (k, e) :: filter (fun x => negb (str_eqb (fst x) k)) m.
(** src/Lineshapes.cpp:96-104 *)
Definition isLineshape (m : registry) (x : str) : bool := Descriptor.Model.isLineshape (map fst m) x.
(** src/Lineshapes.cpp:121-134: the name before the first point and what follows; a name that is not known gives a null pointer, which is used.
    AmpGen/Lineshapes.h:62-65: daughters 0 and 1. *)
Definition base (x : str) : str := upto (find0 (S_ ".") x) x.
Definition modifier (x : str) : str := match find0 (S_ ".") x with Some n => skipn (S n) x | None => [] end.
Fixpoint factory (fuel : nat) (m : registry) (x : str) (p : particle) : res C :=
  match fuel with
  | 0 => OutOfFuel
  | S n => match lookup m (base x) with
    | None => UB
    | Some (TwoBody f) => match p with
        | Particle name _ s L (d0 :: d1 :: _) => f s (massSq d0) (massSq d1) name L (modifier x)
        | _ => UB
        end
    | Some (Generic f) => f (factory n m) p (modifier x)
    end
  end.
Definition get (m : registry) (x : str) (p : particle) : res C := factory (S (List.length x)) m x p.
(** src/Lineshapes/EtaDalitz.cpp:28-29 *)
Definition EtaDalitz (z : particle -> res C) : lineshape :=
  Generic (fun fac p mod_ => bind (z p) (fun amp => match mod_ with [] => Ok amp | _ => bind (fac mod_ p) (fun x => Ok (amp * x)%C) end)).
(** m_lineshape.find(...) != npos *)
Definition contains (w x : str) : bool := match find0 w x with Some _ => true | None => false end.
(** src/Particle.cpp:371-379 *)
Definition own (m : registry) (p : particle) : res C :=
  match List.length (daughters p) with
  | 0 => Ok (RtoC 1)
  | 1 => if contains (S_ "BW") (shape p) || contains (S_ "FormFactor") (shape p) then Ok (RtoC 1) else get m (shape p) p
  | 2 => get m (shape p) p
  | _ => get m (if str_eqb (shape p) (S_ "BW") then S_ "SBW" else shape p) p
  end.
(** src/Particle.cpp:361-385 *)
Fixpoint propagator (m : registry) (p : particle) : res C :=
  let fix each (ds : list particle) (total : C) : res C :=
    match ds with [] => Ok total | d :: r => bind (propagator m d) (fun x => each r (total * x)%C) end in
  match p with Particle _ _ _ _ ds => bind (own m p) (fun prop => each ds (RtoC 1 * prop)%C) end.
