From Verif.Couplings Require Import Model Spec Proofs.
Open Scope Z_scope.

(** The couplings of a two-body decay are exactly those of angular momentum addition, each listed once; with parity
    conservation requested, those of them that conserve it. (L and S are listed doubled.) *)
Theorem C54_couplings : forall p d1 d2 c, spins_ok p d1 d2 -> statistics_ok p d1 d2 ->
  exists l, spinOrbitCouplings p [d1; d2] c = Ok l /\ NoDup l /\
    forall x S, In (x, S) l <-> exists L, x = 2 * L /\ allowed (twoSpin p) (twoSpin d1) (twoSpin d2) L S /\ (c = true -> parity_ok p d1 d2 L).
Proof. exact couplings_ok. Qed.
Print Assumptions C54_couplings.

(** a1(1260)+ to rho(770)0 pi+: S and D waves, P wave as well if parity may be violated. *)
Example C54_couplings_example :
  spins_ok (State 2 1) (State 2 (-1)) (State 0 (-1)) /\ statistics_ok (State 2 1) (State 2 (-1)) (State 0 (-1)) /\
  spinOrbitCouplings (State 2 1) [State 2 (-1); State 0 (-1)] true = Ok [(0, 2); (4, 2)] /\
  spinOrbitCouplings (State 2 1) [State 2 (-1); State 0 (-1)] false = Ok [(0, 2); (2, 2); (4, 2)] /\
  spinOrbitCouplings (State 3 1) [State 1 1; State 2 (-1)] false = Ok [(0, 3); (2, 1); (2, 3); (4, 1); (4, 3); (6, 3)].
Proof. repeat split; try reflexivity; cbn; lia. Qed.

(** The range of L without parity: every L between the two ends occurs, and no other. *)
Theorem C54_range : forall p d1 d2 L, spins_ok p d1 d2 -> statistics_ok p d1 d2 ->
  (fst (orbitalRange p [d1; d2] false) <= L <= snd (orbitalRange p [d1; d2] false) <->
   exists S, allowed (twoSpin p) (twoSpin d1) (twoSpin d2) L S).
Proof. intros p d1 d2 L H E. rewrite <- (range_ok p d1 d2 L H E). unfold orbitalRange. destruct (range p d1 d2). reflexivity. Qed.
Print Assumptions C54_range.

(** With parity: the least and the greatest L that occur and conserve parity; {999, 999} if and only if there is none. *)
Theorem C54_range_parity : forall p d1 d2, spins_ok p d1 d2 -> statistics_ok p d1 d2 ->
  let Q L := (exists S, allowed (twoSpin p) (twoSpin d1) (twoSpin d2) L S) /\ parity_ok p d1 d2 L in
  (exists lo hi, orbitalRange p [d1; d2] true = (lo, hi) /\ least Q lo /\ greatest Q hi) \/
  (orbitalRange p [d1; d2] true = (999, 999) /\ forall L, ~ Q L).
Proof. exact orbitalRange_parity. Qed.
Print Assumptions C54_range_parity.

Example C54_range_example :
  orbitalRange (State 2 1) [State 2 (-1); State 0 (-1)] true = (0, 2) /\ orbitalRange (State 2 1) [State 2 (-1); State 0 (-1)] false = (0, 2) /\
  orbitalRange (State 0 1) [State 0 1; State 0 (-1)] true = (999, 999) /\ orbitalRange (State 5 1) [State 1 1; State 0 (-1)] true = (3, 3).
Proof. repeat split; reflexivity. Qed.

(** Decays that create or destroy a single half-integer spin: J = 1 from spins 1/2 and 0 is impossible, but
    (L,S) = (1,1/2) is listed, and the orbital range is not the empty one: the decay is not reported (line 229). *)
Theorem C54_statistics_refuted : exists p d1 d2, spins_ok p d1 d2 /\
  spinOrbitCouplings p [d1; d2] false = Ok [(2, 1)] /\ fst (orbitalRange p [d1; d2] false) <> 999 /\
  forall L S, ~ allowed (twoSpin p) (twoSpin d1) (twoSpin d2) L S.
Proof.
  exists (State 2 1), (State 1 1), (State 0 1). split; [repeat split; cbn; lia|]. split; [reflexivity|]. split; [vm_compute; discriminate|].
  cbn [twoSpin]. intros L S (_ & [T1 _] & [_ T2]). assert (S = 1) by lia. subst S. apply Z.even_spec in T2 as [k K]. lia.
Qed.
Print Assumptions C54_statistics_refuted.

(** With fewer than two daughters the couplings read a daughter that does not exist; with more than two there are none. *)
Theorem C54_arity : forall p ds c, List.length ds <> 2%nat ->
  spinOrbitCouplings p ds c = if Nat.ltb (List.length ds) 2 then UB else Ok [].
Proof. intros p [|d1 [|d2 [|d3 r]]] c H; try reflexivity. contradiction. Qed.
Print Assumptions C54_arity.
