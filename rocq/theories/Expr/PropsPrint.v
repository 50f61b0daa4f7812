From Verif.Common Require Import Prelude.
From Verif.Expr Require Import Model Print PrintSpec PrintProofs.
From Coq Require Import Field QArith Qcanon Qround.

Local Open Scope nat_scope.

(** ** C20 *)
(** The full claim is for every tree. It is proved, for exact arithmetic, for trees whose constants survive printing with six
    digits, whose function nodes compute in memory what the C++ function printed computes, and whose sub-expressions are held by
    the variables printed for them. *)
Theorem C20_text_partial : forall V (v0 v1 : V) add mul sub opp div inv (FT : field_theory v0 v1 add mul sub opp div inv eq) eq0
  (E0 : forall x, eq0 x = true <-> x = v0) bval uval tval shown rho var apply call un bin,
  same_meaning V v1 add mul sub div eq0 bval uval apply call un bin ->
  forall e, nodes V (fun c => shown c = c) un bin (fun k a => var k = eval V add mul sub div eq0 bval uval tval rho a) e ->
  reads V (fun n => Some (rho n)) var apply call tval (print V v1 shown e) (eval V add mul sub div eq0 bval uval tval rho e).
Proof.
  intros V v0 v1 add mul sub opp div inv FT eq0 E0 bval uval tval shown rho var apply call un bin (A1 & A2 & A3 & A4 & A5 & A6 & A7 & A8).
  exact (print_reads V v0 v1 add mul sub opp div inv FT eq0 E0 bval uval tval shown rho var apply call un bin A1 A2 A3 A4 A5 A6 A7 A8).
Qed.
Print Assumptions C20_text_partial.
(** A text has at most one value. *)
Theorem C20_unambiguous : forall V name var apply call truth ts v w,
  reads V name var apply call truth ts v -> reads V name var apply call truth ts w -> v = w.
Proof.
  intros V name var apply call truth ts v w [f1 H1] [f2 H2]. specialize (H1 (f1 + f2)). specialize (H2 (f1 + f2)).
  rewrite H1 in H2 by lia. specialize (H2 ltac:(lia)). congruence.
Qed.
Print Assumptions C20_unambiguous.

(** An instance over the rational numbers: six digits after the point, < and fmod. *)
Definition q0 (a : Qc) : bool := Qc_eq_bool a 0.
Definition qlt (a b : Qc) : bool := match Qccompare a b with Lt => true | _ => false end.
(** %g of numbers from 1 up to 10. *)
Definition g6 (a : Qc) : Qc := Q2Qc (Qmake (Qfloor (this a * inject_Z 100000 + (1 # 2))) 100000).
Definition truthq (a : Qc) : bool := negb (q0 a).
Definition qbval (b : binop) (x y : Qc) : option Qc :=
  match b with BLT => Some (if qlt x y then 1%Qc else 0%Qc) | BFmod => Some 0%Qc | _ => None end.
Definition quval (u : unop) (x : Qc) : option Qc := match u with UReal => Some x | _ => None end.
Definition fmod (x y : Qc) : option Qc :=
  if q0 y then None else let q := (x / y)%Qc in Some (x - y * Q2Qc (inject_Z (if qlt q 0 then - Qfloor (- this q) else Qfloor (this q))))%Qc.
Definition qapply (o : op) (a b : option Qc) : option Qc :=
  match o with
  | OAdd => lift2 Qc Qcplus a b | OSub => lift2 Qc Qcminus a b | OMul => lift2 Qc Qcmult a b | ODiv => odiv Qc Qcdiv q0 a b
  | OLT => strict2 Qc (qbval BLT) a b | _ => None
  end.
Definition qcall (f : unop + binop) (l : list (option Qc)) : option Qc :=
  match f, l with
  | inl UReal, [x] => x
  | inr BFmod, [x; y] => strict2 Qc fmod x y
  | _, _ => None
  end.
Definition qrho (n : str) : Qc := if str_eqb n (S_ "x") then Q2Qc (5 # 2) else Q2Qc (inject_Z 3).
Definition qevalp e := eval Qc Qcplus Qcmult Qcminus Qcdiv q0 qbval quval truthq qrho e.
Definition qreads e v := reads Qc (fun n => Some (qrho n)) (fun _ => Some 0%Qc) qapply qcall truthq (print Qc 1%Qc g6 e) v.
Lemma qreads_at f e (v : Qc) :
  option_map (fun p => (option_map this (fst p), snd p)) (parse Qc (fun n => Some (qrho n)) (fun _ => Some 0%Qc) qapply qcall truthq f 7 (print Qc 1%Qc g6 e))
    = Some (Some (this v), []) -> qreads e (Some v).
Proof.
  intro H. apply (reads_at _ _ _ _ _ _ f). destruct (parse _ _ _ _ _ _ _ _ _) as [[[a|] r]|]; cbn in H; try discriminate.
  injection H as E ->. do 3 f_equal. apply Qc_is_canon. now rewrite E.
Qed.
Definition px : expr Qc := Param Qc (S_ "x"). Definition py : expr Qc := Param Qc (S_ "y").
Definition pc (n : Z) : expr Qc := Const Qc (Some (Q2Qc (inject_Z n))).

(** x-(y-2*(x + y)) * ( (y < x ? x : real(y) / x) ) *)
Definition sample : expr Qc :=
  Sub Qc px (Sub Qc py (Product Qc (pc 2) (Product Qc (Sum Qc px py) (Ternary Qc (Bin Qc BLT py px) px (Divide Qc (Un Qc UReal py) px))))).
Example C20_example :
  same_meaning Qc 1%Qc Qcplus Qcmult Qcminus Qcdiv q0 qbval quval qapply qcall (fun u => u = UReal) (fun b => b = BLT) /\
  nodes Qc (fun c => g6 c = c) (fun u => u = UReal) (fun b => b = BLT) (fun _ _ => False) sample /\
  qevalp sample = Some (Q2Qc (127 # 10)) /\ qreads sample (Some (Q2Qc (127 # 10))).
Proof.
  split; [|split; [|split]].
  - split; [reflexivity|]. split; [reflexivity|]. split; [reflexivity|]. split; [reflexivity|].
    split; [intros b o x y -> [= <-]; reflexivity|]. split; [intros b x y -> ?; discriminate|].
    split; [intros u [x|] -> _; reflexivity|intros x [=]].
  - cbn. repeat split; apply Qc_is_canon; reflexivity.
  - now vm_compute.
  - apply (qreads_at 99). vm_compute. reflexivity.
Qed.

(** Constants are printed with six significant digits, so the text of 1.234567 reads 1.23457. *)
Theorem C20_digits_refuted : exists c v, qevalp (Const Qc (Some c)) = Some c /\ qreads (Const Qc (Some c)) (Some v) /\ v <> c.
Proof.
  exists (Q2Qc (1234567 # 1000000)), (Q2Qc (123457 # 100000)). split; [reflexivity|]. split.
  - apply (qreads_at 99). vm_compute. reflexivity.
  - intro E. apply (f_equal this) in E. discriminate.
Qed.
Print Assumptions C20_digits_refuted.
(** An fmod node evaluates to 0 in memory but its text calls fmod: fmod(5,3) is 2. *)
Theorem C20_fmod_refuted : exists e v, qevalp e = Some 0%Qc /\ qreads e (Some v) /\ v <> 0%Qc.
Proof.
  exists (Bin Qc BFmod (pc 5) (pc 3)), (Q2Qc (inject_Z 2)). split; [reflexivity|]. split.
  - apply (qreads_at 99). vm_compute. reflexivity.
  - intro E. apply (f_equal this) in E. discriminate.
Qed.
Print Assumptions C20_fmod_refuted.
