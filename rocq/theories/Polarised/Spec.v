(** Averages, density matrices of spin, combinations. *)
From Verif.Common Require Import Prelude.
From Coq Require Import Reals.
From Coquelicot Require Import Hierarchy Complex.
From Verif.Polarised Require Import Model.
Local Open Scope C_scope.
(** The weighted average of a function over a sample. *)
Fixpoint sumR (n : nat) (f : nat -> R) : R := match n with 0%nat => 0%R | S n' => (sumR n' f + f n')%R end.
Definition average (s : sample) (f : nat -> R) : R := (sumR (n_events s) (fun e => weight s e * f e) / sumR (n_events s) (weight s))%R.
(** The values the sum has for event [e] of a sample: sum of the amplitudes with their couplings, for each state of the decaying
    particle and of the products. *)
Definition T_at (s2 n : nat) (coupling : nat -> C) (s : sample) (e : nat) : nat -> nat -> C := transitionMatrix s2 n coupling (amps s e).
(** What the calls of prepare() lead to: at the first every element counts as changed, at a later one those do that have another
    amplitude for some event than before (C32). The events are the same at every call. *)
Inductive reached (s1 s2 n : nat) (pf : list R) : sample -> list R -> (nat -> C) -> (nat -> nat -> nat -> C) -> R -> Prop :=
| first s p c todo norms0 norms N : (forall i, (i < n)%nat -> todo i = true) ->
    prepare s1 s2 n p pf c todo s norms0 = Ok (norms, N) -> reached s1 s2 n pf s p c norms N
| later s p c norms N s' p' c' todo norms' N' : reached s1 s2 n pf s p c norms N ->
    n_events s' = n_events s -> (forall e, weight s' e = weight s e) ->
    (forall i, (i < n)%nat -> todo i = false -> forall e x, amps s' e i x = amps s e i x) ->
    prepare s1 s2 n p' pf c' todo s' norms = Ok (norms', N') -> reached s1 s2 n pf s' p' c' norms' N'.
(** Matrices of spin 1, with the states in the order 1, 0, -1. *)
Definition mat (l : list (list C)) (a b : nat) : C := List.nth b (List.nth a l nil) 0.
Definition Sx : nat -> nat -> C := let h := RtoC (/ sqrt 2) in mat [[RtoC 0; h; RtoC 0]; [h; RtoC 0; h]; [RtoC 0; h; RtoC 0]].
Definition Sy : nat -> nat -> C := let h := RtoC (/ sqrt 2) in mat [[RtoC 0; - Ci * h; RtoC 0]; [Ci * h; RtoC 0; - Ci * h]; [RtoC 0; Ci * h; RtoC 0]].
Definition Sz : nat -> nat -> C := mat [[RtoC 1; RtoC 0; RtoC 0]; [RtoC 0; RtoC 0; RtoC 0]; [RtoC 0; RtoC 0; - RtoC 1]].
Definition mul3 (A B : nat -> nat -> C) (a b : nat) : C := A a 0%nat * B 0%nat b + A a 1%nat * B 1%nat b + A a 2%nat * B 2%nat b.
Definition anti (A B : nat -> nat -> C) (a b : nat) : C := mul3 A B a b + mul3 B A a b.
(** Three times the density matrix of a particle of spin 1 with the polarisation vector p and the symmetric traceless tensor T. *)
Definition spin1_density (px py pz Tyy Tzz Txy Txz Tyz : R) (a b : nat) : C :=
  delta a b + RtoC (3 / 2) * (RtoC px * Sx a b + RtoC py * Sy a b + RtoC pz * Sz a b)
  + RtoC (sqrt (3 / 2)) * (RtoC (- Tyy - Tzz) * anti Sx Sx a b + RtoC Tyy * anti Sy Sy a b + RtoC Tzz * anti Sz Sz a b
                           + RtoC 2 * (RtoC Txy * anti Sx Sy a b + RtoC Txz * anti Sx Sz a b + RtoC Tyz * anti Sy Sz a b)).
(** The probability (up to a constant) that a state of the decaying particle is seen in the direction [v]: |<v|T>|^2, summed over the states of the products *)
Definition overlap (s1 s2 : nat) (v : nat -> C) (T : nat -> nat -> C) : R :=
  sumR s2 (fun f => (Cmod (csum s1 (fun a => Cconj (v a) * T a f)%C) ^ 2)%R).
(** All combinations in the order of a counter whose last digit runs fastest. *)
Fixpoint lex {A} (elements : list (list A)) : list (list A) :=
  match elements with [] => [] :: nil | e :: r => flat_map (fun x => map (cons x) (lex r)) e end.
(** The polarisation vector and tensor of the state v of spin 1/2 and of spin 1: expectation values. *)
Definition expect (n : nat) (A : nat -> nat -> C) (v : nat -> C) : R := Re (csum n (fun a => csum n (fun b => Cconj (v a) * A a b * v b))).
Definition normalised (n : nat) (v : nat -> C) : Prop := sumR n (fun a => (Cmod (v a) ^ 2)%R) = 1%R.
Definition tensor (i : bool) (A B : nat -> nat -> C) (v : nat -> C) : R := ((3 / 2 * expect 3 (anti A B) v - (if i then 2 else 0)) / sqrt 6)%R.
