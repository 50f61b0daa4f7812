(** Cascade rules: src/AmplitudeRules.cpp:92-105, 120-145, 153-170, 201-230. *)
From Verif.Common Require Export Prelude.
From Verif.Utilities Require Import Model.
From Verif.Descriptor Require Import Model Spec.
From Coq Require Import Reals.

(** What is asked of the particle table: which names are known, and the order in which the daughters of a particle are
    put (src/Particle.cpp:674-681; C53). *)
Record world := World { known : str -> bool; order : str -> list tree -> list tree }.

(** src/Particle.cpp:77-121, reduced to names, modifiers and daughters: the modifiers are kept as they are written (what
    printing makes of them is C55). [Ok None]: not good, without name. A daughter without properties is undefined. *)
Fixpoint all_read (l : list (res (option tree))) : res (list tree) :=
  match l with
  | [] => Ok []
  | r :: t => bind r (fun o => match o with None => UB | Some p => bind (all_read t) (fun ps => Ok (p :: ps)) end)
  end.
Fixpoint read (w : world) (fuel : nat) (s : str) : res (option tree) :=
  match fuel with
  | 0 => OutOfFuel
  | S f =>
      bind (getItems "{" "}" "," s) (fun items =>
      match items with
      | [] => Ok None
      | head :: rest =>
          bind (getItems "[" "]" ";" head) (fun ms =>
          match ms with
          | [] => UB
          | n :: mods => bind (all_read (map (read w f) rest)) (fun ds => if known w n then Ok (Some (Tree n mods (order w n ds))) else UB)
          end)
      end)
  end.
(** src/Particle.cpp:787: m_uniqueString, empty for a particle that could not be read. *)
Definition uniqueString (o : option tree) : str := match o with Some t => text t | None => [] end.

(** AmpGen/AmplitudeRules.h:24-50. The value: src/AmplitudeRules.cpp:125-128. *)
Inductive constant := Value (z : R * R) | Cartesian (re im : R) | Polar (re im sf : R).
Record rule := Rule { prefix : str; rname : str; particle : tree; coupling : constant }.
Definition at_ (c : constant) : R * R :=
  match c with Value z => z | Cartesian re im => (re, im) | Polar re im sf => (re * cos (sf * im), re * sin (sf * im))%R end.
Definition cmul (a b : R * R) : R * R := (fst a * fst b - snd a * snd b, fst a * snd b + snd a * fst b)%R.
(** src/AmplitudeRules.cpp:137-140 *)
Definition total (l : list rule) : R * R := fold_left (fun prod r => cmul prod (at_ (coupling r))) l (1, 0)%R.

Definition head_of (r : rule) : str := let '(Tree n _ _) := particle r in n.
(** src/AmplitudeRules.cpp:92-105. The map from heads to rules, in the order in which they were added, is the list of all
    rules; a head is in the map if a rule was added for it. *)
Definition hasDecay (rules : list rule) (x : str) : bool := existsb (fun r => str_eqb (head_of r) x) rules.
Definition rulesForDecay (rules : list rule) (x pre : str) : list rule :=
  let l := filter (fun r => str_eqb (head_of r) x) rules in
  match pre with [] => l | _ => filter (fun r => str_eqb (prefix r) pre) l end.

(** src/Particle.cpp:325-344. Sorting by the original index does nothing here: no indices have been assigned. *)
Fixpoint leaves (t : tree) : list str := let '(Tree _ _ ds) := t in flat_map (fun d => let '(Tree n _ es) := d in match es with [] => [n] | _ => leaves d end) ds.
Definition final_states (o : option tree) : list str := match o with Some t => leaves t | None => [] end.

(** src/AmplitudeRules.cpp:201-230; [fuel] for replaceAll, for reading, and for the number of rounds. *)
Definition amplitude : Type := option tree * list rule.
Definition canExpand (rules : list rule) (a : amplitude) : bool := existsb (hasDecay rules) (final_states (fst a)).
Fixpoint collect {A B} (f : A -> res (list B)) (l : list A) : res (list B) :=
  match l with [] => Ok [] | a :: r => bind (f a) (fun x => bind (collect f r) (fun y => Ok (x ++ y))) end.
Definition round (w : world) (fuel : nat) (rules : list rule) (rt : list amplitude) : res (list amplitude) :=
  collect (fun a : amplitude =>
    match find (hasDecay rules) (final_states (fst a)) with
    | None => Ok [a]
    | Some x => collect (fun r => bind (replaceAll fuel (uniqueString (fst a)) x (rname r)) (fun s => bind (read w fuel s) (fun o => Ok [(o, snd a ++ [r])]))) (rulesForDecay rules x [])
    end) rt.
Fixpoint rounds (n : nat) (w : world) (fuel : nat) (rules : list rule) (rt : list amplitude) : res (list amplitude) :=
  match n with
  | 0 => OutOfFuel
  | S m => bind (round w fuel rules rt) (fun rt' => if existsb (canExpand rules) rt' then rounds m w fuel rules rt' else Ok rt')
  end.
Definition expand (w : world) (fuel : nat) (rules : list rule) (c : rule) : res (list amplitude) :=
  rounds fuel w fuel rules [(Some (particle c), [c])].

(** src/Particle.cpp:102-111, 118: whether every final state of the event type was given to some particle. *)
Fixpoint use (x : str) (fs : list (str * bool)) : list (str * bool) :=
  match fs with
  | [] => []
  | (y, used) :: r => if used || negb (str_eqb x y) then (y, used) :: use x r else (y, true) :: r
  end.
Definition isStateGood (t : tree) (fs : list str) : bool := forallb snd (fold_left (fun st x => use x st) (leaves t) (map (fun y => (y, false)) fs)).

(** src/AmplitudeRules.cpp:153-170 *)
Definition match_step (w : world) (fuel : nat) (fs : list str) (rt : res (list (tree * list rule))) (a : amplitude) : res (list (tree * list rule)) :=
  bind rt (fun rt => bind (read w fuel (uniqueString (fst a))) (fun o =>
  match o with
  | None => Ok rt
  | Some p => if isStateGood p fs && negb (existsb (fun x => str_eqb (text (fst x)) (text p)) rt) then Ok (rt ++ [(p, snd a)]) else Ok rt
  end)).
Definition getMatchingRules (w : world) (fuel : nat) (rules : list rule) (mother : str) (fs : list str) (pre : str) : res (list (tree * list rule)) :=
  fold_left (fun rt r => if str_eqb (prefix r) pre then bind rt (fun l => bind (expand w fuel rules r) (fun e => fold_left (match_step w fuel fs) e (Ok l))) else rt)
    (rulesForDecay rules mother pre) (Ok []).
