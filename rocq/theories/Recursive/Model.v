(** Generation of decays in steps: src/RecursivePhaseSpace.cpp. An event is a list of four-momenta instead of a list of numbers. The momenta
    that PhaseSpace gives for one step (C46) are inputs. Real numbers for double; [Throw] is a result that is not a number. *)
From Coq Require Import Reals List.
From Verif.Common Require Import Prelude Writes.
From Verif.Kinematics Require Import Model.
Import ListNotations.
Local Open Scope R_scope.

(** Particle: name(), mass(), daughters(). *)
Inductive chain := Chain (name : str) (mass : R) (daughters : list chain).
(** AmpGen/RecursivePhaseSpace.h:37-43. No decay products: a null pointer. A sink of -1: [None]. The mass is that given to m_phsp. *)
Inductive node := Node (name : str) (mass : R) (sink : option nat) (decayProds : list node).

(** src/RecursivePhaseSpace.cpp:30-36: the first place with this name that is not used. *)
Fixpoint first_free (used : list nat) (name : str) (types : list str) (i : nat) : option nat :=
  match types with
  | [] => None
  | t :: r => if negb (existsb (Nat.eqb i) used) && str_eqb name t then Some i else first_free used name r (S i)
  end.
(** src/RecursivePhaseSpace.cpp:27-38, 75-86: the loop over the final states, in the order of getFinalStates. A final state
    for which there is no place keeps what it has. *)
Fixpoint assign1 (types : list str) (n : node) (used : list nat) : node * list nat :=
  match n with
  | Node name m s ds =>
      match ds with
      | [] => match first_free used name types 0 with
              | Some i => (Node name m (Some i) [], i :: used)
              | None => (n, used)
              end
      | _ => let '(ds', used') :=
               (fix go (ds : list node) (used : list nat) : list node * list nat :=
                  match ds with
                  | [] => ([], used)
                  | d :: r => let '(d', u) := assign1 types d used in let '(r', u') := go r u in (d' :: r', u')
                  end) ds used in (Node name m s ds', used')
      end
  end.
Definition assign (types : list str) : list node -> list nat -> list node * list nat :=
  fix go (ds : list node) (used : list nat) : list node * list nat :=
    match ds with
    | [] => ([], used)
    | d :: r => let '(d', u) := assign1 types d used in let '(r', u') := go r u in (d' :: r', u')
    end.
(** src/RecursivePhaseSpace.cpp:13-42: a generator is made for every daughter first, with sinks of its own; those without decay products
    (size() == 0) are dropped. *)
Fixpoint construct (types : list str) (c : chain) : list node :=
  match c with
  | Chain _ _ ds => fst (assign types (map (fun d => match d with Chain n m _ => Node n m None (construct types d) end) ds) [])
  end.

(** The momentum of a particle in the rest frame of its mother, and those of its decay products in its own. *)
Inductive drawn := Drawn (p : p4) (products : list drawn).
Definition zero4 : p4 := P4 (V3 0 0 0) 0.
Definition plus (a b : list p4) : list p4 := map (fun '(p, q) => add4 p q) (combine a b).
(** src/RecursivePhaseSpace.cpp:48-70 for one node; n is the number of particles of the event type. *)
Fixpoint generate1 (n : nat) (nd : node) (d : drawn) (rt : list p4) : res (list p4) :=
  match nd, d with
  | Node _ _ s ds, Drawn p sub =>
      match ds with
      | [] => match s with
              | None => Ok rt
              | Some i => match set_at i p rt with Some rt' => Ok rt' | None => UB end
              end
      | _ => bind ((fix go (ds : list node) (sub : list drawn) (rt : list p4) : res (list p4) :=
                      match ds, sub with
                      | [], _ => Ok rt
                      | d :: r, e :: r' => bind (generate1 n d e rt) (go r r')
                      | _, [] => UB
                      end) ds sub (repeat zero4 n)) (fun tmp =>
             let v := mag (vect p) / en p in
             if Req_EM_T (en p) 0 then Throw
             else if Req_EM_T (mag (vect p)) 0 then Throw
             else if Rlt_dec (v * v) 1 then Ok (plus rt (map (boost1 (vect p) v) tmp)) else Throw)
      end
  end.
Definition generate (n : nat) : list node -> list drawn -> list p4 -> res (list p4) :=
  fix go (ds : list node) (sub : list drawn) (rt : list p4) : res (list p4) :=
    match ds, sub with
    | [], _ => Ok rt
    | d :: r, e :: r' => bind (generate1 n d e rt) (go r r')
    | _, [] => UB
    end.
(** src/RecursivePhaseSpace.cpp:44-73 *)
Definition makeEvent (types : list str) (nodes : list node) (draws : list drawn) : res (list p4) :=
  generate (List.length types) nodes draws (repeat zero4 (List.length types)).
