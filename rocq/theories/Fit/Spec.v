(** Likelihoods as products, constraints as squares of pulls, and parameters of which only some fields change. *)
From Coq Require Import Reals.
From Verif.Common Require Import Prelude.
From Verif.Coherent Require Import Model Real.
From Verif.Minuit Require Import Model.
From Verif.Fit Require Import Model.
Local Open Scope R_scope.

(** The sum of densities at an event, and the likelihood of a sample: the product over events, each to the power of its weight. *)
Definition mixture {Q Ev} (ds : list (Q -> Ev -> R)) (q : Q) (x : Ev) : R := fold_right (fun d s => d q x + s) 0 ds.
Definition likelihood {Q Ev} (weight : Ev -> R) (ds : list (Q -> Ev -> R)) (q : Q) (l : list Ev) : R := fold_right (fun x s => Rpower (mixture ds q x) (weight x) * s) 1 l.
Definition product (l : list R) : R := fold_right Rmult 1 l.
(** The Gaussian density of a parameter, up to its constant. *)
Definition gauss (x m s : R) : R := exp (- ((x - m) / s) ^ 2 / 2).
Definition gaussians (cs : list (nat * R * R)) (v : list R) : R := product (map (fun c => let '(k, m, s) := c in gauss (nth k v 0) m s) cs).
Definition to_terms (cs : list (nat * R * R)) : list extended := map (fun c => let '(k, m, s) := c in Gaussian k m s) cs.

(** The intensity of a group of amplitudes with couplings [g] and integrals [N i j] = <A_i conj A_j>: with all its interference, and with none. *)
Definition intensity (g : nat -> cplx R) (N : nat -> nat -> cplx R) (is : list nat) : R := fst (Csum_ (fun i => Csum_ (fun j => cmul RS (cmul RS (g i) (cconj RS (g j))) (N i j)) is) is).
Definition no_interference (g : nat -> cplx R) (N : nat -> nat -> cplx R) (is : list nat) : R := fst (Csum_ (fun i => cmul RS (cmul RS (g i) (cconj RS (g i))) (N i i)) is).
(** What a flat matrix of integrals holds: those above the diagonal and on it; nothing below. *)
Definition upper_only (n : nat) (l : list (cplx R)) (N : nat -> nat -> cplx R) : Prop :=
  List.length l = (n * n)%nat /\ forall i j, (i < n)%nat -> (j < n)%nat -> nth_error l (i * n + j) = Some (if (i <=? j)%nat then N i j else c0 RS).

(** The fields of a parameter that a fit does not change. *)
Definition same_setup (p p' : param R) : Prop :=
  name R p' = name R p /\ flag R p' = flag R p /\ meanInit R p' = meanInit R p /\ stepInit R p' = stepInit R p /\ minInit R p' = minInit R p /\ maxInit R p' = maxInit R p /\ Minuit.Model.index R p' = Minuit.Model.index R p.
(** One value replaced. *)
Definition replaced (k : nat) (x : R) (v : list R) : list R := firstn k v ++ x :: skipn (S k) v.
(** Floating parameters: positions of parameters, none twice. *)
Definition floating (mapping : list nat) (ps : list (param R)) : Prop := NoDup mapping /\ forall k, In k mapping -> (k < List.length ps)%nat.
Definition points (n : nat) (l : list (list R)) : Prop := forall xx, In xx l -> List.length xx = n.
