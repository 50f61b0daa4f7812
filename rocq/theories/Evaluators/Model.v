(** Model of the functions of an event that are used for plots: evaluator, amplitudeEvaluator and componentEvaluator of
    src/CoherentSum.cpp and src/IncoherentSum.cpp, and those of AmpGen/SumPDF.h. Complex numbers stand for [complex_t]; a block
    is a list of [w] of them. The storage is that of Verif.Store. Not represented: the compiled expressions (an element has a
    value for every position of the list of events, with the positions that pad the last block), the events of the
    integrator as a default. *)
From Verif.Common Require Import Prelude.
From Coq Require Import Reals.
From Coquelicot Require Import Hierarchy Complex.
From Verif.Store Require Import Model.
Local Open Scope C_scope.

(** AmpGen/MatrixElement.h: what the sum uses of a TransitionMatrix; [value k]: the amplitude at position k. *)
Record element := Element { name : str; coefficient : C; value : nat -> C }.
Definition zeros (w : nat) : list C := repeat (RtoC 0) w.
(** What the call of the compiled expression gives for block [b]. *)
Definition lanes (w : nat) (e : element) (b : nat) : list C := map (fun k => value e (b * w + k)%nat) (seq 0 w).
(** AmpGen/Store.h:120-131, 147-186 *)
Fixpoint updates (al : layout) (w : nat) (els : list element) (s : store (list C)) : res (store (list C)) :=
  match els with
  | [] => Ok s
  | e :: els' => bind (update (list C) al (seq 0 (n_blocks s)) (name e) (fun b => lanes w e b :: nil) s) (updates al w els')
  end.
Definition cache (al : layout) (w n : nat) (els : list element) : res (store (list C)) :=
  updates al w els (allocate (list C) (zeros w) w n (map (fun e => (name e, 1%nat)) els) (construct (list C) (zeros w) w 0 0)).

(** Operations of complex_v. *)
Definition vadd (a b : list C) : list C := map (fun p => fst p + snd p) (combine a b).
Definition vscale (c : C) (a : list C) : list C := map (Cmult c) a.
(** src/CoherentSum.cpp:333-335, 352-354: the loop over j. *)
Fixpoint block_amp (s : store (list C)) (b j : nat) (els : list element) (amp : list C) : res (list C) :=
  match els with
  | [] => Ok amp
  | e :: els' => bind (read (list C) AoS s b j) (fun v => block_amp s b (S j) els' (vadd amp (vscale (coefficient e) v)))
  end.
(** The loop over blocks, each storing its values after those of the blocks before: src/CoherentSum.cpp:331-337. *)
Fixpoint over_blocks {A} (bs : list nat) (f : nat -> res (list A)) : res (list A) :=
  match bs with [] => Ok [] | b :: bs' => bind (f b) (fun x => bind (over_blocks bs' f) (fun y => Ok (x ++ y))) end.
(** AmpGen/Utilities.h:168-172 *)
Definition arrayToFunctor {A} (values : list A) (index : nat) : res A := of_opt (nth_error values index).
(** src/CoherentSum.cpp:341-361 *)
Definition amplitudeEvaluator (w n : nat) (els : list element) (index : nat) : res C :=
  bind (cache AoS w n els) (fun s =>
  bind (over_blocks (seq 0 (n_blocks s)) (fun b => block_amp s b 0 els (zeros w))) (fun values => arrayToFunctor values index)).
(** src/CoherentSum.cpp:321-339; [std::norm] is the square of the modulus. *)
Definition norm (z : C) : R := (Re z * Re z + Im z * Im z)%R.
Definition evaluator (w n : nat) (weight m_norm : R) (els : list element) (index : nat) : res R :=
  bind (cache AoS w n els) (fun s =>
  bind (over_blocks (seq 0 (n_blocks s)) (fun b => bind (block_amp s b 0 els (zeros w)) (fun amp => Ok (map (fun z => (weight / m_norm * norm z)%R) amp))))
    (fun values => arrayToFunctor values index)).
(** src/IncoherentSum.cpp:163-167 *)
Fixpoint block_norm (s : store (list C)) (b j : nat) (els : list element) (amp : list R) : res (list R) :=
  match els with
  | [] => Ok amp
  | e :: els' => bind (read (list C) AoS s b j) (fun v => block_norm s b (S j) els' (map (fun p => (fst p + snd p)%R) (combine amp (map norm (vscale (coefficient e) v)))))
  end.
(** src/IncoherentSum.cpp:152-170 *)
Definition incoherent_evaluator (w n : nat) (weight m_norm : R) (els : list element) (index : nat) : res R :=
  bind (cache AoS w n els) (fun s =>
  bind (over_blocks (seq 0 (n_blocks s)) (fun b => bind (block_norm s b 0 els (repeat 0%R w)) (fun amp => Ok (map (fun z => (weight / m_norm * z)%R) amp))))
    (fun values => arrayToFunctor values index)).

(** ** Components *)
(** src/CoherentSum.cpp:392: the functor of the pair i, j. On the events of the integrator the cache is that of the integrator,
    which is filled in the same way. *)
Definition pair_value (w : nat) (s : store (list C)) (ci cj : C) (i j index : nat) : res R :=
  bind (get SoA w s index i) (fun a => bind (get SoA w s index j) (fun b =>
    Ok (Rmult (if (i =? j)%nat then 1%R else 2%R) (Re (ci * a * Cconj (cj * b)))))).
(** AmpGen/KeyedFunctors.h:21-26 *)
Fixpoint all_values {A} (l : list (res A)) : res (list A) :=
  match l with [] => Ok [] | x :: l' => bind x (fun v => bind (all_values l') (fun vs => Ok (v :: vs))) end.
(** src/CoherentSum.cpp:381-395: the functors in the order in which they are added. [els] from element i on. *)
Fixpoint row (w : nat) (s : store (list C)) (ci : C) (i j index : nat) (els : list element) : list (res R) :=
  match els with [] => [] | e :: els' => pair_value w s ci (coefficient e) i j index :: row w s ci i (S j) index els' end.
Fixpoint rows (w : nat) (s : store (list C)) (i index : nat) (els : list element) : list (res R) :=
  match els with [] => [] | e :: els' => row w s (coefficient e) i i index (e :: els') ++ rows w s (S i) index els' end.
(** src/CoherentSum.cpp:365-398 with the call of all functors for an event. *)
Definition componentEvaluator (w n : nat) (els : list element) (index : nat) : res (list R) :=
  bind (cache SoA w n els) (fun s => all_values (rows w s 0 index els)).
(** src/IncoherentSum.cpp:172-198 *)
Fixpoint singles (w : nat) (s : store (list C)) (i index : nat) (els : list element) : list (res R) :=
  match els with
  | [] => []
  | e :: els' => bind (get SoA w s index i) (fun a => Ok (norm (coefficient e * a))) :: singles w s (S i) index els'
  end.
Definition incoherent_components (w n : nat) (els : list element) (index : nat) : res (list R) :=
  bind (cache SoA w n els) (fun s => all_values (singles w s 0 index els)).

(** ** Sums of several distributions *)
(** AmpGen/SumPDF.h:120-128: a pdf is its evaluator for these events; [indices]: index() of the event at each position. *)
Fixpoint add_pdf (indices : list nat) (eval : nat -> res R) (values : list R) : res (list R) :=
  match indices, values with
  | i :: is', v :: vs => bind (eval i) (fun x => bind (add_pdf is' eval vs) (fun r => Ok ((v + x)%R :: r)))
  | _, _ => Ok values
  end.
Fixpoint add_pdfs (indices : list nat) (pdfs : list (nat -> res R)) (values : list R) : res (list R) :=
  match pdfs with [] => Ok values | p :: ps => bind (add_pdf indices p values) (add_pdfs indices ps) end.
Definition sum_evaluator (indices : list nat) (pdfs : list (nat -> res R)) (index : nat) : res R :=
  bind (add_pdfs indices pdfs (repeat 0%R (List.length indices))) (fun values => arrayToFunctor values index).
(** AmpGen/SumPDF.h:129-137 *)
Definition sum_components (pdfs : list (nat -> res R)) (index : nat) : res (list R) := all_values (map (fun p => p index) pdfs).
