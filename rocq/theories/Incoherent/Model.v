(** Incoherent sums of amplitudes: src/IncoherentSum.cpp, AmpGen/IncoherentSum.h. The class is derived from CoherentSum and adds
    no data; the functions prepare() and updateNorms() are those of CoherentSum (Coherent/Model.v). None of them is virtual, so that
    the call of norm() in CoherentSum::updateNorms (src/CoherentSum.cpp:121) is that of CoherentSum::norm, and m_norm is
    what [prepare] there makes it. *)
From Verif.Common Require Import Prelude.
From Verif.Store Require Import Model.
From Verif.Coherent Require Import Model.
Local Open Scope nat_scope.

Section Sum.
  Variables (K : Type) (o : scalar K) (Ev V P : Type).
  Notation C := (cplx K).
  Notation csum := (csum K Ev V P).
  (** std::norm *)
  Definition cnorm (a : C) : K := kadd o (kmul o (fst a) (fst a)) (kmul o (snd a) (snd a)).
  Fixpoint ksum {A} (l : list A) (f : A -> res K) (acc : K) : res K :=
    match l with [] => Ok acc | x :: l' => bind (f x) (fun v => ksum l' f (kadd o acc v)) end.
  (** src/IncoherentSum.cpp:92-103 *)
  Definition prob_unnormalised (s : csum) (e : nat) : res K :=
    ksum (seq 0 (List.length (mes s))) (fun i => bind (of_opt (nth_error (mes s) i)) (fun m =>
      bind (read C AoS (cache s) e i) (fun a => Ok (cnorm (cmul o (coef m) a))))) (k0 o).
  (** src/IncoherentSum.cpp:87-90 and 106-115 (one event per block): the weight comes first in both, the order of the division differs. *)
  Definition prob (weight : K) (s : csum) (e : nat) : res K :=
    bind (prob_unnormalised s e) (fun v => Ok (kdiv o (kmul o weight v) (m_norm s))).
  Definition prob_block (weight : K) (s : csum) (e : nat) : res K :=
    bind (prob_unnormalised s e) (fun v => Ok (kmul o (kdiv o weight (m_norm s)) v)).
  (** src/IncoherentSum.cpp:123-130: the amplitudes of the event, with the present parameters of the elements. *)
  Definition prob_no_cache (s : csum) (x : Ev) : K :=
    fold_left (fun a m => kadd o a (cnorm (cmul o (coef m) (amp (elem m) (ext m) x)))) (mes s) (k0 o).
  (** src/IncoherentSum.cpp:150-167: for an event of the list it is made for. *)
  Definition evaluator (weight : K) (s : csum) (x : Ev) : K :=
    kmul o (kdiv o weight (m_norm s)) (prob_no_cache s x).
  (** src/IncoherentSum.cpp:169-194 *)
  Definition component (s : csum) (i : nat) (x : Ev) : res K :=
    bind (of_opt (nth_error (mes s) i)) (fun m => Ok (cnorm (cmul o (coef m) (amp (elem m) (ext m) x)))).
  (** src/IncoherentSum.cpp:25-39 *)
  Definition norm (s : csum) : res K :=
    let n := List.length (mes s) in
    ksum (seq 0 n) (fun i => bind (of_opt (nth_error (mes s) i)) (fun m => bind (of_opt (nth_error (norms s) (i * n + i))) (fun v =>
      Ok (kmul o (fst v) (cnorm (coef m)))))) (k0 o).
  (** AmpGen/IncoherentSum.h:61 *)
  Definition norm_pair (s : csum) (i j : nat) : res C :=
    if i =? j then of_opt (nth_error (norms s) (i * List.length (mes s) + i)) else Ok (c0 o).
  (** AmpGen/FitFraction.h:77-94 for this class: norm(i, j) is the function above. *)
  Definition ff_term (s : csum) (i j : nat) : res C :=
    bind (of_opt (nth_error (mes s) i)) (fun mi => bind (of_opt (nth_error (mes s) j)) (fun mj =>
    bind (if i <=? j then norm_pair s i j else bind (norm_pair s j i) (fun v => Ok (cconj o v))) (fun v =>
      Ok (cmul o (cmul o (coef mi) (cconj o (coef mj))) v)))).
  Definition ff_norm (s : csum) (normset : list nat) : res K :=
    bind (double_sum K o normset normset (ff_term s) (c0 o)) (fun v => Ok (fst v)).
  (** src/IncoherentSum.cpp:70-84, before sorting: the fraction of element i, and their sum. [transfer p] is transferParameters()
      (AmpGen/FitFraction.h:64, src/CoherentSum.cpp:267-271): only the couplings are brought up to date. *)
  Definition transfer (p : P) (s : csum) : csum :=
    Csum K Ev V P (map (fun m => Me K Ev V P (elem m) (ext m) (changed m) (todo m) (coupling (elem m) p)) (mes s)) (events s) (cache s) (integ s) (norms s) (m_norm s) (calls s).
  Definition fraction (s : csum) (i : nat) : res K :=
    bind (double_sum K o [i] [i] (ff_term s) (c0 o)) (fun v => bind (ff_norm s (seq 0 (List.length (mes s)))) (fun n => Ok (kdiv o (fst v) n))).
  Definition fractions (p : P) (s : csum) : res (list K * K) :=
    let s := transfer p s in
    let fix go l rv sum := match l with [] => Ok (rv, sum) | i :: l' => bind (fraction s i) (fun v => go l' (rv ++ [v]) (kadd o sum v)) end in
    go (seq 0 (List.length (mes s))) [] (k0 o).
End Sum.
