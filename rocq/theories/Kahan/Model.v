(** Transcription of AmpGen/KahanSum.h. [fl] rounds the exact result of an addition or subtraction; overflow is not modelled. *)
From Coq Require Import Reals List.
From Verif.Phsp Require Import Model.
Import ListNotations.
Local Open Scope R_scope.

(** AmpGen/KahanSum.h:14-16 *)
Record acc := Acc { sum : R; cor : R }.
Definition empty : acc := Acc 0 0.
Definition rle (a b : R) : bool := negb (rlt b a).

Section Rounded.
  Variable fl : R -> R.

  (** AmpGen/KahanSum.h:17-31; what is added to [cor]. *)
  Definition lost (a : acc) (x : R) : R :=
    let t := fl (sum a + x) in
    if rle (Rabs x) (Rabs (sum a)) then fl (fl (sum a - t) + x) else fl (fl (x - t) + sum a).
  Definition add (a : acc) (x : R) : acc := Acc (fl (sum a + x)) (fl (cor a + lost a x)).
  (** AmpGen/KahanSum.h:32 *)
  Definition value (a : acc) : R := fl (sum a + cor a).
  (** AmpGen/KahanSum.h:34-43 *)
  Definition plus (a : acc) (x : R) : acc :=
    let y := fl (x - cor a) in
    let t := fl (sum a + y) in
    Acc t (fl (fl (t - sum a) - y)).

  Definition adds (a : acc) (xs : list R) : acc := fold_left add xs a.

  (** AmpGen/KahanSum.h:46-72: [sum], [cs], [ccs] after the loop. *)
  Definition two (s x : R) : R * R :=
    let t := fl (s + x) in
    (t, if rle (Rabs x) (Rabs s) then fl (fl (s - t) + x) else fl (fl (x - t) + s)).
  Definition klein_step (a : R * R * R) (x : R) : R * R * R :=
    let '(s, cs, ccs) := a in
    let '(s', c) := two s x in
    let '(cs', cc) := two cs c in
    (s', cs', fl (ccs + cc)).
  Definition klein_loop (xs : list R) : R * R * R := fold_left klein_step xs (0, 0, 0).
  Definition klein (xs : list R) : R := let '(s, cs, ccs) := klein_loop xs in fl (fl (s + cs) + ccs).
End Rounded.
