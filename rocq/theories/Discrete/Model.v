(** Transcription of AmpGen/DiscreteDistribution.h and src/DiscreteDistribution.cpp with real numbers for double. *)
From Coq Require Import Reals List.
From Verif.Common Require Import Prelude.
From Verif.Phsp Require Import Model.
Import ListNotations.
Local Open Scope R_scope.

(** An element of m_buckets: two indices and a threshold. *)
Notation bucket := (nat * nat * R)%type.

(** The constructor, src/DiscreteDistribution.cpp:6-11: [None] is a division by zero (all probabilities NaN or infinite). *)
Definition probabilities (weights : list R) : option (list R) :=
  let sum := fold_left Rplus weights 0 in
  match weights with
  | [] => Some []
  | _ => if Req_EM_T sum 0 then None else Some (map (fun w => w / sum) weights)
  end.

Section Buckets.
  Variable N : nat.
  Definition unit_length : R := 1 / INR N.

  (** src/DiscreteDistribution.cpp:27-29: two stacks, with their top first. *)
  Fixpoint split (ps : list R) (i : nat) (small large : list (R * nat)) : list (R * nat) * list (R * nat) :=
    match ps with
    | [] => (small, large)
    | p :: ps' => if rlt p unit_length then split ps' (S i) ((p, i) :: small) large else split ps' (S i) small ((p, i) :: large)
    end.

  (** src/DiscreteDistribution.cpp:33-44 *)
  Fixpoint mix (fuel : nat) (i : nat) (small large : list (R * nat)) (acc : list bucket) : res (list (R * nat) * list (R * nat) * list bucket) :=
    match small, large with
    | (ps, js) :: small', (pl, jl) :: large' =>
        match fuel with
        | O => OutOfFuel
        | S fuel' =>
            let b := (js, jl, ps + INR i / INR N) in
            let left_over := ps + pl - 1 / INR N in
            if rlt left_over unit_length then mix fuel' (S i) ((left_over, jl) :: small') large' (acc ++ [b])
            else mix fuel' (S i) small' ((left_over, jl) :: large') (acc ++ [b])
        end
    | _, _ => Ok (small, large, acc)
    end.
End Buckets.

(** src/DiscreteDistribution.cpp:18-60 *)
Definition pure (x : R * nat) : bucket := (snd x, snd x, 0).
Definition create_buckets (fuel : nat) (ps : list R) : res (list bucket) :=
  let N := List.length ps in
  if Nat.eqb N 0 then Ok [(O, O, 0)]
  else
    let '(small, large) := split N ps 0 [] [] in
    bind (mix N fuel 0 small large []) (fun '(small, large, acc) => Ok (acc ++ map pure large ++ map pure small)).

(** operator(), AmpGen/DiscreteDistribution.h:19-24, for the uniform number [u]. *)
Definition draw (buckets : list bucket) (u : R) : res nat :=
  let index := Z.to_nat (Int_part (INR (List.length buckets) * u)) in
  match nth_error buckets index with
  | Some (a, b, t) => Ok (if rlt u t then a else b)
  | None => UB
  end.

(** min and max, src/DiscreteDistribution.cpp:13-14 *)
Definition min_index (ps : list R) : nat := O.
Definition max_index (ps : list R) : nat := match ps with [] => O | _ => (List.length ps - 1)%nat end.
