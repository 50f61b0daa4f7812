(** What the caches are meant to hold: what a computation from scratch gives. *)
From Verif.Common Require Import Prelude.
From Verif.Store Require Import Model.
From Verif.Coherent Require Import Model.
Local Open Scope nat_scope.

Section Spec.
  Variables (K : Type) (o : scalar K) (Ev : Type) (wt : Ev -> K) (V : Type) (veqb : V -> V -> bool) (P : Type).
  Notation C := (cplx K).
  Notation element := (element K Ev V P).
  Notation csum := (csum K Ev V P).

  (** What a user does: fit parameters change, data sets change, the caches are reset or brought up to date. *)
  Inductive act := SetP (p : P) | SetEvents (l : list Ev) | SetMC (l : list Ev) | Reset (all : bool) | Prepare.
  Definition step (a : act) (s : P * csum) : res (P * csum) :=
    match a with
    | SetP p => Ok (p, snd s)
    | SetEvents l => Ok (fst s, set_events K o Ev V P l (snd s))
    | SetMC l => Ok (fst s, set_mc K o Ev wt V P l (snd s))
    | Reset all => Ok (fst s, reset K o Ev V P all (snd s))
    | Prepare => bind (prepare K o Ev V veqb P (fst s) (snd s)) (fun c => Ok (fst s, c))
    end.
  Fixpoint run (h : list act) (s : P * csum) : res (P * csum) :=
    match h with [] => Ok s | a :: h' => bind (step a s) (run h') end.

  (** The current parameters and data sets after a history. *)
  Definition now_p (p : P) (h : list act) : P := fold_left (fun p a => match a with SetP q => q | _ => p end) h p.
  Definition now_events (h : list act) : option (list Ev) :=
    fold_left (fun e a => match a with SetEvents l => Some l | Reset true => None | _ => e end) h None.
  Definition now_mc (h : list act) : option (list Ev) :=
    fold_left (fun e a => match a with SetMC l => Some l | Reset true => None | _ => e end) h None.

  (** The parameters of an element for the fit parameters [p]: at each address the value of the last source that writes there,
      otherwise the value the element was built with. *)
  Fixpoint last_source (a : nat) (src : list (nat * (P -> V))) : option (P -> V) :=
    match src with
    | [] => None
    | (b, f) :: src' => match last_source a src' with Some g => Some g | None => if b =? a then Some f else None end
    end.
  Definition value_at (p : P) (e : element) (a : nat) (v : V) : V := match last_source a (sources e) with Some f => f p | None => v end.
  Fixpoint values_from (p : P) (e : element) (a : nat) (l : list V) : list V :=
    match l with [] => [] | v :: l' => value_at p e a v :: values_from p e (S a) l' end.
  Definition fresh (p : P) (x : element * list V) (evt : Ev) : C := amp (fst x) (values_from p (fst x) 0 (snd x)) evt.

  (** The weighted average of a_i conj(a_j) over a sample. *)
  Fixpoint bilinear (a b : Ev -> C) (l : list Ev) (acc : C) : C :=
    match l with
    | [] => acc
    | x :: l' => let v := cmul o (a x) (cconj o (b x)) in
        bilinear a b l' (kadd o (fst acc) (kmul o (wt x) (fst v)), kadd o (snd acc) (kmul o (wt x) (snd v)))
    end.
  Definition total_weight (l : list Ev) : K := fold_left (kadd o) (map wt l) (k0 o).
  Definition average (a b : Ev -> C) (l : list Ev) : C := cdivr o (bilinear a b l (c0 o)) (total_weight l).

  (** The sum of amplitudes for an event, and the norm, from scratch. *)
  Definition fresh_sum (p : P) (l : list (element * list V)) (evt : Ev) : C :=
    fold_left (fun acc x => cadd o acc (cmul o (coupling (fst x) p) (fresh p x evt))) l (c0 o).
  Definition term (p : P) (mc : list Ev) (ix jx : nat * (element * list V)) : C :=
    let '(i, x) := ix in let '(j, y) := jx in
    cmul o (cmul o (coupling (fst x) p) (cconj o (coupling (fst y) p)))
      (if j <? i then cconj o (average (fresh p y) (fresh p x) mc) else average (fresh p x) (fresh p y) mc).
  Definition numbered {A} (l : list A) : list (nat * A) := combine (seq 0 (List.length l)) l.
  Definition fresh_norm (p : P) (l : list (element * list V)) (mc : list Ev) : K :=
    fst (fold_left (fun acc ix => fold_left (fun acc jx => cadd o acc (term p mc ix jx)) (numbered l) acc) (numbered l) (c0 o)).

  (** Elements with different names whose sources write inside their parameters. *)
  Definition sound (l : list (element * list V)) : Prop :=
    NoDup (map (fun x => name (fst x)) l) /\ forall x a f, In x l -> In (a, f) (sources (fst x)) -> a < List.length (snd x).
  (** Data sets the store can hold: fewer than 2^32 events. *)
  Definition short (h : list act) : Prop :=
    forall a, In a h -> match a with SetEvents l | SetMC l => (N.of_nat (List.length l) < 4294967296)%N | _ => True end.
End Spec.
Arguments SetP {Ev P}. Arguments SetEvents {Ev P}. Arguments SetMC {Ev P}. Arguments Reset {Ev P}. Arguments Prepare {Ev P}.
Arguments now_p {Ev P}. Arguments now_events {Ev P}. Arguments now_mc {Ev P}. Arguments short {Ev P}. Arguments sound {K Ev V P}.

(** All pairs of different positions, as in the loop over interference terms. *)
Fixpoint pairs {A} (l : list A) : list (A * A) := match l with [] => [] | a :: l' => map (pair a) l' ++ pairs l' end.
(** The event list the sum points to is changed by its owner; the sum is not told. *)
Definition owner_changes {K Ev V P} (l : list Ev) (s : csum K Ev V P) : csum K Ev V P :=
  match events s with Some _ => Csum K Ev V P (mes s) (Some l) (cache s) (integ s) (norms s) (m_norm s) (calls s) | None => s end.
