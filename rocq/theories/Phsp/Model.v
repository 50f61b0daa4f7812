(** Transcription of src/PhaseSpace.cpp with real numbers for double. The square root of a negative number and a division by zero are [None]
    (not a number or infinite in the code). *)
From Coq Require Import Reals List.
From Verif.Common Require Import Prelude.
Import ListNotations.
Local Open Scope R_scope.

Notation quad := (R * R * R * R)%type.

Definition rlt (a b : R) : bool := if Rlt_dec a b then true else false.
Definition rsqrt (x : R) : option R := if rlt x 0 then None else Some (sqrt x).

(** src/PhaseSpace.cpp:32-35 *)
Definition radicand (m m1 m2 : R) : R := m * m - 2 * m1 * m1 - 2 * m2 * m2 + (m1 * m1 - m2 * m2) * (m1 * m1 - m2 * m2) / (m * m).
Definition q (m m1 m2 : R) : option R :=
  if Req_EM_T m 0 then None else option_map (fun r => 5 / 10 * r) (rsqrt (radicand m m1 m2)).

(** The members set by setDecay (AmpGen/PhaseSpace.h, private members): m_mass, m_teCmTm, m_wtMax. *)
Record phsp := Phsp { masses : list R; te : R; wtMax : R }.

(** src/PhaseSpace.cpp:15, AmpGen/PhaseSpace.h: m_mass[18] *)
Definition kMAXP : nat := 18.

(** src/PhaseSpace.cpp:108-115: the product over n >= 1 with emmin, emmax; [prev] is m_mass[n-1]. *)
Fixpoint weight_max (prev emmin emmax wt : R) (ms : list R) : option R :=
  match ms with
  | [] => Some wt
  | m :: ms' =>
      let emmin := emmin + prev in
      let emmax := emmax + m in
      match q emmax emmin m with Some p => weight_max m emmin emmax (wt * p) ms' | None => None end
  end.

(** src/PhaseSpace.cpp:99-118. [Throw] is a maximal weight that is not a number or zero. *)
Definition set_decay (old : phsp) (m0 : R) (ms : list R) : res (bool * phsp) :=
  if Nat.ltb kMAXP (List.length ms) then UB
  else
    let t := fold_left Rminus ms m0 in
    match ms with
    | [] => UB
    | m :: ms' =>
        if rlt 0 t then
          match weight_max m 0 (t + m) 1 ms' with
          | Some w => if Req_EM_T w 0 then Throw else Ok (true, Phsp ms t (1 / w))
          | None => Throw
          end
        else Ok (false, Phsp ms t (wtMax old))
    end.

(** std::sort of src/PhaseSpace.cpp:50 *)
Fixpoint ins (x : R) (l : list R) : list R :=
  match l with [] => [x] | y :: l' => if rlt y x then y :: ins x l' else x :: l end.
Definition sort (l : list R) : list R := fold_right ins [] l.

Section Fill.
  (** The numbers given by m_rand->Rndm(), in the order of the calls. *)
  Variable u : nat -> R.

  (** src/PhaseSpace.cpp:47-50 for m_nt >= 2: rno[0..m_nt-1] *)
  Definition fractions (k nt : nat) : list R := 0 :: sort (map (fun i => u (k + i)%nat) (seq 0 (nt - 2)) ++ [1]).

  (** src/PhaseSpace.cpp:51-55 *)
  Fixpoint invariants (t sum : R) (rno ms : list R) : list R :=
    match rno, ms with
    | r :: rno', m :: ms' => (r * t + (sum + m)) :: invariants t (sum + m) rno' ms'
    | _, _ => []
    end.

  (** src/PhaseSpace.cpp:56-59: pd and wt; [prev] is invMas[n], the lists start at n+1. *)
  Fixpoint momenta (prev wt : R) (inv ms : list R) : option (list R * R) :=
    match inv, ms with
    | i :: inv', m :: ms' =>
        match q i prev m with
        | Some p => option_map (fun '(l, w) => (p :: l, w)) (momenta i (wt * p) inv' ms')
        | None => None
        end
    | _, _ => Some ([], wt)
    end.

  (** One trial of src/PhaseSpace.cpp:45-60, with the index of the random number that decides: invMas, pd and wt. *)
  Definition trial (s : phsp) (k : nat) : option (list R * list R * R) :=
    let inv := invariants (te s) 0 (fractions k (List.length (masses s))) (masses s) in
    match inv, masses s with
    | i :: inv', _ :: ms' => option_map (fun '(pd, w) => (inv, pd, w)) (momenta i (wtMax s) inv' ms')
    | _, _ => None
    end.

  (** The loop of src/PhaseSpace.cpp:45-60. A weight that is not a number is not smaller than anything: the loop is left, [Throw]. *)
  Fixpoint trials (fuel : nat) (s : phsp) (k : nat) : res (list R * list R * nat) :=
    match fuel with
    | O => OutOfFuel
    | S fuel' =>
        let k' := (k + (List.length (masses s) - 2))%nat in
        match trial s k with
        | None => Throw
        | Some (inv, pd, w) => if rlt w (u k') then trials fuel' s (S k') else Ok (inv, pd, S k')
        end
    end.

  (** src/PhaseSpace.cpp:78-85 *)
  Definition move (cZ sZ cY sY beta gamma : R) (p : quad) : quad :=
    let '(x, y, z, E) := p in
    (cY * (cZ * x - sZ * y) - sY * z,
     gamma * (sZ * x + cZ * y + beta * E),
     sY * (cZ * x - sZ * y) + cY * z,
     gamma * (E + beta * (sZ * x + cZ * y))).

  (** src/PhaseSpace.cpp:65-87 from particle i on: [acc] are the particles before it, [pds] starts with pd[i-1], [ms] with m_mass[i], [inv] with
      invMas[i]; i == m_nt - 1 when there is no pd[i]. The position in [output], (4*i + component)*width, is not modelled. *)
  Fixpoint build (k : nat) (acc : list quad) (pds ms inv : list R) : list quad * nat :=
    match pds, ms, inv with
    | p :: pds', m :: ms', i :: inv' =>
        let new := (0, - p, 0, sqrt (p * p + m * m)) in
        let cZ := 2 * u k - 1 in
        let sZ := sqrt (1 - cZ * cZ) in
        let angY := 2 * PI * u (S k) in
        let beta := match pds' with [] => 0 | p' :: _ => p' / sqrt (p' * p' + i * i) end in
        let gamma := match pds' with [] => 1 | _ => 1 / sqrt (1 - beta * beta) end in
        build (S (S k)) (map (move cZ sZ (cos angY) (sin angY) beta gamma) (acc ++ [new])) pds' ms' inv'
    | _, _, _ => (acc, k)
    end.

  (** src/PhaseSpace.cpp:37-87. With fewer than two particles pd[0] is never written. The decay time of line 88 is not modelled. *)
  Definition fill (fuel : nat) (s : phsp) : res (list quad) :=
    if Nat.ltb (List.length (masses s)) 2 || Nat.ltb kMAXP (List.length (masses s)) then UB
    else
      bind (trials fuel s 0) (fun '(inv, pd, k) =>
        match pd, masses s, inv with
        | p :: _, m :: ms', _ :: inv' => Ok (fst (build k [(0, p, 0, sqrt (p * p + m * m))] pd ms' inv'))
        | _, _, _ => UB
        end).
End Fill.
