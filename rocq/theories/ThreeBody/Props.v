From Coq Require Import Reals List Lra Lia String.
From Coquelicot Require Import Complex.
From Verif.Common Require Import Prelude.
From Verif.ThreeBody Require Import Model Spec Proofs.
Import ListNotations.
Local Open Scope R_scope.

(** For a head of spin J the spin average is the sum over the components of the squared modulus of the sum of the currents. *)
Theorem C92_average J js : Forall spatial js -> spinAverage (2 * J) J js = Some (RtoC (rsum (map (fun co => sqmod (csum (map (fun j => j co) js))) (indices 3 J)))).
Proof. apply spinAverage_spatial. Qed.
Print Assumptions C92_average.
Definition along (z : C) (k : nat) : tensor := fun co => match co with [c] => if Nat.eqb c k then z else RtoC 0 | _ => RtoC 0 end.
Example C92_average_ex : Forall spatial [along (1, 2) 0; along (2, 0) 0; along (0, 3) 2] /\ spinAverage 2 1 [along (1, 2) 0; along (2, 0) 0; along (0, 3) 2] = Some (RtoC 22).
Proof.
  assert (S : Forall spatial [along (1, 2) 0; along (2, 0) 0; along (0, 3) 2]). { repeat constructor; intros [|c [|d co]] I; try reflexivity; destruct I as [-> |[]]; reflexivity. }
  split; [exact S|]. change 2%nat with (2 * 1)%nat at 1. rewrite (C92_average 1 _ S). f_equal. f_equal. unfold rsum, sqmod, csum. cbn. ring.
Qed.

(** updateRunningWidth: the knots, equidistant from the minimum to the maximum, get the sum of the partial widths there over that at the norm mass (the
    parameter for the mass if none is given). All other parameters keep their values. *)
Theorem C92_knots head ws n min max ps mNorm m :
  (2 <= n)%nat -> n <> 999%nat -> (mNorm = 0 /\ find (head ++ S_ "_mass") ps = Some (Some m) \/ mNorm <> 0 /\ m = mNorm) -> numbers (map (fun w => getPartial w (m * m)) ws) <> 0 ->
  exists ps', updateRunningWidth head ws (construct n min max) ps mNorm = Ok ps' /\ map fst ps' = map fst ps /\
    (forall c, (c < n)%nat -> find (knotName head c) ps <> None ->
      find (knotName head c) ps' = Some (Some (numbers (map (fun w => getPartial w (min + INR c / INR (n - 1) * (max - min))) ws) / numbers (map (fun w => getPartial w (m * m)) ws)))) /\
    (forall k, (forall c, (c < n)%nat -> k <> knotName head c) -> find k ps' = find k ps).
Proof.
  intros Hn N9 Hm Nz. rewrite <- getWidth_numbers in Nz. destruct (update_ok head ws n min max ps mNorm m Hn N9 Hm Nz) as (ps' & E & Nm & K & O). exists ps'. split; [exact E|]. split; [exact Nm|]. split; [|exact O].
  intros c C F. rewrite K by exact C. destruct (find (knotName head c) ps); [|congruence]. rewrite <- !getWidth_numbers. f_equal. f_equal. f_equal. f_equal. unfold Rdiv. ring.
Qed.
Print Assumptions C92_knots.
Definition flat (x : R) : partialWidth := {| twoSpin := 2; integral := fun s => Some (- (x * s)) |}.
Definition table : params := [(S_ "a_mass", Some 2); (knotName (S_ "a") 0, Some 0); (knotName (S_ "a") 2, Some 0); (S_ "b", Some 7)].
Example C92_knots_ex : exists ps', updateRunningWidth (S_ "a") [flat 1; flat 3] (construct 3 1 5) table 0 = Ok ps' /\ find (knotName (S_ "a") 0) ps' = Some (Some (1 / 4)) /\ find (knotName (S_ "a") 2) ps' = Some (Some (5 / 4)) /\ find (S_ "b") ps' = Some (Some 7).
Proof.
  destruct (C92_knots (S_ "a") [flat 1; flat 3] 3 1 5 table 0 2) as (ps' & E & _ & K & O); [lia|lia|left; now split|cbn; lra|]. exists ps'. split; [exact E|].
  split; [|split]; [rewrite K; [|lia|discriminate]|rewrite K; [|lia|discriminate]|rewrite O; [reflexivity|]].
  - do 2 f_equal. cbn. field.
  - do 2 f_equal. cbn. field.
  - intros c _ D. discriminate.
Qed.

(** A knot at the square of the mass is one. *)
Theorem C92_unit head ws n min max ps mNorm m c ps' :
  (2 <= n)%nat -> n <> 999%nat -> (mNorm = 0 /\ find (head ++ S_ "_mass") ps = Some (Some m) \/ mNorm <> 0 /\ m = mNorm) -> numbers (map (fun w => getPartial w (m * m)) ws) <> 0 ->
  (c < n)%nat -> find (knotName head c) ps <> None -> min + INR c / INR (n - 1) * (max - min) = m * m -> updateRunningWidth head ws (construct n min max) ps mNorm = Ok ps' -> find (knotName head c) ps' = Some (Some 1).
Proof.
  intros Hn N9 Hm Nz C F S E. destruct (C92_knots head ws n min max ps mNorm m Hn N9 Hm Nz) as (p2 & E2 & _ & K & _). rewrite E in E2. injection E2 as <-. rewrite K by assumption. rewrite S. do 2 f_equal. now field.
Qed.
Print Assumptions C92_unit.
Example C92_unit_ex : numbers (map (fun w => getPartial w (2 * 2)) [flat 1]) <> 0 /\ find (knotName (S_ "a") 2) table <> None /\ 0 + INR 2 / INR (3 - 1) * (4 - 0) = 2 * 2.
Proof. split; [cbn; lra|]. split; [discriminate|]. cbn. lra. Qed.

(** A common factor of the widths does not matter. *)
Theorem C92_scale k head ws a ps mNorm : k <> 0 -> updateRunningWidth head (map (scaled k) ws) a ps mNorm = updateRunningWidth head ws a ps mNorm.
Proof. apply update_scaled. Qed.
Print Assumptions C92_scale.

(** A head with half-integer spin: pow(-1, twoSpin/2.) is not a number, so no matrix element is; such widths are left out of the sum, which is 0, and
    every knot is 0/0 (src/ThreeBodyCalculators.cpp:167, 262). *)
Theorem C92_half_integer_refuted : exists head ws n min max ps ps', (exists w, In w ws /\ forall s, 0 < s -> exists x, integral w s = Some x /\ 0 < x) /\ updateRunningWidth head ws (construct n min max) ps 0 = Ok ps' /\
  exists c, (c < n)%nat /\ find (knotName head c) ps = Some (Some 0) /\ find (knotName head c) ps' = Some None.
Proof.
  set (ws := [{| twoSpin := 1; integral := fun s => Some s |}]). exists (S_ "a"), ws, 3%nat, 1, 5, table. assert (E : exists ps', updateRunningWidth (S_ "a") ws (construct 3 1 5) table 0 = Ok ps').
  { unfold updateRunningWidth. destruct (Req_EM_T 0 0); [|congruence]. cbn [bind of_opt]. eexists. reflexivity. }
  destruct E as [ps' E]. exists ps'. split; [exists {| twoSpin := 1; integral := fun s => Some s |}; split; [now left|]; intros s S; exists s; now split|]. split; [exact E|]. exists 0%nat. split; [lia|]. split; [reflexivity|].
  assert (H : Forall (fun w => Nat.even (twoSpin w) = false) ws) by (repeat constructor). assert (N9 : 3%nat <> 999%nat) by discriminate. pose proof (half_knots (S_ "a") ws 3 1 5 table 0 ps' H N9 E 0%nat) as Z.
  assert (F : find (knotName (S_ "a") 0) ps' <> None).
  { rewrite find_in. intro N. apply N. clear N. assert (Q : map fst ps' = map fst table).
    { unfold updateRunningWidth in E. destruct (Req_EM_T 0 0); [|congruence]. cbn [bind of_opt] in E. match type of E with bind ?x _ = _ => change x with (Ok (Some 2)) in E end. cbn [bind construct Nat.eqb setAxis m_nKnots m_step m_min] in E.
      match type of E with Ok (fold_left _ _ _) = _ => idtac end. injection E as <-.
      match goal with |- map fst ?x = _ => set (f := knot ws (getWidth ws (2 * 2)) 1 (over (5 - 1) (INR 2))); change x with (fold_left (step_knot (S_ "a") f) (seq 0 3) table) end. apply steps_names. }
    rewrite Q. right. left. reflexivity. }
  destruct (find (knotName (S_ "a") 0) ps') as [v|]; [|congruence]. f_equal. apply (Z v); [lia|reflexivity].
Qed.
Print Assumptions C92_half_integer_refuted.

(** 999 knots is taken for no choice of knots: the step is never set, and reading it is undefined (src/ThreeBodyCalculators.cpp:191). *)
Theorem C92_knots_999_refuted : exists n head ws ps, n = 999%nat /\ forall min max mNorm, mNorm <> 0 -> updateRunningWidth head ws (construct n min max) ps mNorm = UB.
Proof. exists 999%nat, (S_ "a"), [flat 1], table. split; [reflexivity|]. intros min max mNorm N. unfold updateRunningWidth. destruct (Req_EM_T mNorm 0); [contradiction|]. reflexivity. Qed.
Print Assumptions C92_knots_999_refuted.

(** widthGraph with limits: the points start at the minimum of the calculator, not at the one asked for (src/ThreeBodyCalculators.cpp:93). *)
Theorem C92_graph_refuted : exists ws a steps min max s g, (2 <= steps)%nat /\ min < max /\ In (Some (s, g)) (widthGraph ws a steps min max) /\ ~ (min <= s <= max).
Proof.
  exists [flat 1], (construct 3 0 9), 2%nat, 4, 5, 0, (getWidth [flat 1] 0). split; [lia|]. split; [lra|]. split; [|lra]. unfold widthGraph. cbn [seq map]. left. unfold over. cbn [Nat.sub INR]. destruct (Req_EM_T 1 0); [lra|]. cbn. do 2 f_equal; ring.
Qed.
Print Assumptions C92_graph_refuted.

(** The running mass does not run: the dispersive integral is always 0, so the graph is the constant squared mass (or 0 without subtractions), whatever the
    widths are (src/ThreeBodyCalculators.cpp:46-55). The same holds for fastRunningMass. *)
Theorem C92_running_mass_refuted : exists mass nSub, 0 < mass /\ forall ws width0 min max nSteps s y, In (s, y) (runningMass ws width0 mass min max nSteps nSub) -> y = mass * mass.
Proof.
  exists 1, 2%nat. split; [lra|]. intros ws width0 min max nSteps s y I. unfold runningMass, dispersive in I. cbn [Nat.eqb] in I. apply in_map_iff in I as (i & E & _). injection E as _ <-. generalize (min + (max - min) * INR i / INR nSteps). intro z. pose proof PI_RGT_0. field. lra.
Qed.
Print Assumptions C92_running_mass_refuted.
