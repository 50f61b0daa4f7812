(** Parameters of the CP conjugate: src/AddCPConjugate.cpp:15-77; src/MinuitExpression.cpp:12-29; src/ExpressionParser.cpp:240-273;
    src/AmplitudeRules.cpp:21-52, 122-125; src/Particle.cpp:750-762, 879-891. *)
From Verif.Common Require Export Prelude.
From Coq Require Import Reals.
From Coquelicot Require Import Hierarchy Complex.
From Verif.Utilities Require Import Model.
Local Open Scope nat_scope.

(** The parameters of a set: a MinuitParameter with its number, a MinuitExpression read from the options with its value as a function of the
    parameters, and the three kinds of MinuitExpression made here from another parameter (AddCPConjugate.cpp:29, 42, 68). *)
Inductive quantity :=
| Par (k : nat)
| Given (f : (nat -> R) -> C)
| Same (q : quantity)
| Conj (q : quantity)
| Times (s : Z) (q : quantity).
(** getVal() for an expression, the number for a parameter. A link (ExpressionParser.cpp:265-269) is evaluated by mean(), which for an
    expression is the real part of its value (MinuitExpression.cpp:26). *)
Fixpoint getVal (q : quantity) (x : nat -> R) : C :=
  match q with
  | Par k => RtoC (x k)
  | Given f => f x
  | Same q => RtoC (Re (getVal q x))
  | Conj q => Cconj (RtoC (Re (getVal q x)))
  | Times s q => (RtoC (IZR s) * RtoC (Re (getVal q x)))%C
  end.
Definition mean (q : quantity) (x : nat -> R) : R := Re (getVal q x).
Definition entry := (str * quantity)%type.

(** What is asked of a decay: name() of Particle(descriptor); of its conj() the decayDescriptor(), the uniqueString(), whether its head has a
    distinct antiparticle, and CP(). *)
Record decay := Decay { head : str; conjDescriptor : str; conjUnique : str; distinct : bool; CP : Z }.
(** The tables of particles and decays the function works with: the name of the antiparticle of a particle if it is known
    (ParticlePropertiesList::get, anti()), isValidDecayDescriptor, the decay of a descriptor (a Particle that is not known has no properties, and
    conj() of it is undefined). The options AddCPConjugate::Forbid and CouplingConstant::Coordinates. *)
Record world := World { anti : str -> option str; valid : str -> bool; decay_of : str -> res decay; forbidden : list str; coordinates : str }.

Definition mem (s : str) (l : list str) : bool := existsb (str_eqb s) l.
Definition colons : str := S_ "::".
Definition underscore : ascii := "_"%char.
(** src/AddCPConjugate.cpp:21-69: what is pushed to tmp for one parameter. *)
Definition conjugate (w : world) (e : entry) : res (option entry) :=
  let '(name, param) := e in
  match find_from colons name 0 with
  | Some pos =>
      Ok match anti w (firstn pos name) with Some a => Some (a ++ skipn pos name, Same param) | None => None end
  | None =>
      let tokens := split name underscore true in
      match tokens with
      | [] => UB
      | pname :: rest =>
          if Nat.eqb (List.length tokens) 1 && valid w pname then
            bind (decay_of w pname) (fun d =>
              Ok (if mem (head d) (forbidden w) then None else Some (conjDescriptor d, Conj param)))
          else
            let reOrIm := last tokens [] in
            if str_eqb reOrIm (S_ "Re") || str_eqb reOrIm (S_ "Im") then
              bind (decay_of w pname) (fun d =>
                Ok (if mem (head d) (forbidden w) then None
                    else if negb (distinct d) then None
                    else let sgn := if str_eqb (coordinates w) (S_ "polar") then if str_eqb reOrIm (S_ "Re") then CP d else 1%Z
                                    else if str_eqb (coordinates w) (S_ "cartesian") then CP d else 1%Z in
                         Some (conjUnique d ++ S_ "_" ++ reOrIm, Times sgn param)))
            else
              let new_name := match rest with
                | t1 :: nil => match anti w pname with Some a => a ++ S_ "_" ++ t1 | None => [] end
                | _ => [] end in
              Ok (Some (new_name, Times 1 param))
      end
  end.
(** The loop over the set, which it does not change. *)
Fixpoint collect (w : world) (l : list entry) : res (list entry) :=
  match l with
  | [] => Ok []
  | e :: r => bind (conjugate w e) (fun o => bind (collect w r) (fun t => Ok (match o with Some n => n :: t | None => t end)))
  end.
(** 70-73 *)
Definition has (n : str) (l : list entry) : bool := existsb (fun e => str_eqb n (fst e)) l.
Fixpoint insert (l tmp : list entry) : list entry :=
  match tmp with
  | [] => l
  | e :: r => insert (if has (fst e) l then l else l ++ e :: nil) r
  end.
Definition AddCPConjugate (w : world) (l : list entry) : res (list entry) := bind (collect w l) (fun tmp => Ok (insert l tmp)).

(** src/AmplitudeRules.cpp:122-125: the coupling of a decay by its real and imaginary part or by modulus and phase ([sf] converts the unit of the
    phase), or by one expression. *)
Definition coupling (cartesian : bool) (sf : R) (re im : quantity) (x : nat -> R) : C :=
  if cartesian then (RtoC (mean re x) + Ci * RtoC (mean im x))%C
  else (RtoC (mean re x) * (RtoC (cos (sf * mean im x)) + Ci * RtoC (sin (sf * mean im x))))%C.
Definition coupling_expression (q : quantity) (x : nat -> R) : C := getVal q x.
(** MinuitParameterSet::find *)
Definition lookup (n : str) (l : list entry) : option quantity := option_map snd (find (fun e => str_eqb n (fst e)) l).
