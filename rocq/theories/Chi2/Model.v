(** Chi2Estimator: src/Chi2Estimator.cpp. Real numbers for double; a division by zero is [Throw] (infinite or not a number in the code). *)
From Coq Require Import Reals List.
From Verif.Common Require Import Prelude Writes.
Import ListNotations.
Local Open Scope R_scope.

(** src/Chi2Estimator.cpp:14-34. The list of values is never read. *)
Record Moment := { x : R; xx : R; N : nat }.
Definition empty : Moment := {| x := 0; xx := 0; N := 0 |}.
Definition add (m : Moment) (value : R) : Moment := {| x := x m + value; xx := xx m + value * value; N := S (N m) |}.
Definition rescale (m : Moment) (val : R) : Moment := {| x := x m * val; xx := xx m * (val * val); N := N m |}.
Definition var (m : Moment) : R := match N m with O => 0 | _ => xx m end.

Definition rdiv (a b : R) : res R := if Req_EM_T b 0 then Throw else Ok (a / b).

Section DoChi2.
  (** An event, the bin it is in (C37), the weight and the density it was generated with. *)
  Context {event : Type}.
  Variables (getBinNumber : event -> nat) (weight genPdf : event -> R).

  (** src/Chi2Estimator.cpp:51-57, 59-66: one loop over events; writing to a bin that does not exist is undefined. *)
  Fixpoint fill (w : event -> res R) (events : list event) (bins : list Moment) (total : R) : res (list Moment * R) :=
    match events with
    | [] => Ok (bins, total)
    | e :: r =>
        bind (w e) (fun v =>
        match nth_error bins (getBinNumber e) with
        | Some m => match set_at (getBinNumber e) (add m v) bins with Some bins' => fill w r bins' (total + v) | None => UB end
        | None => UB
        end)
    end.
  (** src/Chi2Estimator.cpp:69-74 *)
  Fixpoint loop (k : R) (data mc : list Moment) (chi2 : R) : res R :=
    match data, mc with
    | d :: data', m :: mc' =>
        let m' := rescale m k in
        let delta := x d - x m' in
        bind (rdiv (delta * delta) (var d + var m')) (fun t => loop k data' mc' (chi2 + t))
    | _, _ => Ok chi2
    end.
  (** src/Chi2Estimator.cpp:40-77: chi2 and the number of bins. 62: fcn(evt) * evt.weight() / evt.genPdf(). *)
  Definition doChi2 (size : nat) (dataEvents mcEvents : list event) (fcn : event -> R) : res (R * nat) :=
    bind (fill (fun e => Ok (weight e)) dataEvents (repeat empty size) 0) (fun '(data, total_data_weight) =>
    bind (fill (fun e => rdiv (fcn e * weight e) (genPdf e)) mcEvents (repeat empty size) 0) (fun '(mc, total_int_weight) =>
    match size with
    | O => Ok (0, O)
    | _ => bind (rdiv total_data_weight total_int_weight) (fun k => bind (loop k data mc 0) (fun chi2 => Ok (chi2, size)))
    end)).
End DoChi2.
