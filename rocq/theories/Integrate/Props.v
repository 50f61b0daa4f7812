(** C74: adaptive integration. *)
From Verif.Common Require Import Prelude.
From Coq Require Import Reals Lra Permutation.
From Coquelicot Require Import Hierarchy RInt.
From Coq Require Import List.
Import ListNotations.
From Verif.Integrate Require Import Model Spec PolySpec HeapProofs LoopProofs RuleProofs PolyProofs IntProofs TopProofs TableProofs.
Local Open Scope R_scope.

(** What is returned is the sum of the estimates for the regions of a division of the box. It is always the region with the largest error that is
    divided, and always in the direction in which the function bends most. The result is good to ten digits by the errors the rule itself states, or else
    there are not enough of a million evaluations left for another division. *)
Theorem C74_adaptive C dim F xmin xmax : (2 <= dim <= 15)%nat -> complete C -> List.length xmin = dim -> List.length xmax = dim ->
  exists val err axis l,
    integrate C dim F xmin xmax = Ok (total val l) /\ divided val err axis (box xmin xmax) l /\
    (forall c w, List.length c = dim -> List.length w = dim -> integrate_fp C F dim c w = Ok (val (c, w), err (c, w), axis (c, w)) /\ 0 <= err (c, w) /\ (axis (c, w) < dim)%nat /\
       forall j, (j < dim)%nat -> bend (xl2 C) (xl4 C) F c w j <= bend (xl2 C) (xl4 C) F c w (axis (c, w))) /\
    ((2 * Z.of_nat (List.length l) - 1) * points dim <= 10 ^ 6)%Z /\
    (good val err l /\ (1 < List.length l)%nat \/ (10 ^ 6 < (2 * Z.of_nat (List.length l) + 3) * points dim)%Z).
Proof.
  intros D T L H. destruct (integrate_ok C F dim D T xmin xmax L H) as (r & E & Fi). destruct (finished_budget C F dim D T _ _ Fi) as (l & Dv & -> & B & G).
  exists (val C F dim), (err C F dim), (axis C F dim), l. split; [exact E|]. split; [exact Dv|]. split; [|now split]. intros c w Hc Hw. destruct (rule_total C F dim D T (c, w) (Logic.conj Hc Hw)) as (R1 & R2 & R3 & R4). now repeat split.
Qed.
Print Assumptions C74_adaptive.
(** The same however the rule is called: the regions fill the box and do not overlap. *)
Theorem C74_tiles C dim F xmin xmax val err axis l : (2 <= dim <= 15)%nat -> complete C -> List.length xmin = dim -> Forall2 Rle xmin xmax ->
  (forall c w, List.length c = dim -> List.length w = dim -> integrate_fp C F dim c w = Ok (val (c, w), err (c, w), axis (c, w))) ->
  divided val err axis (box xmin xmax) l -> tiles (box xmin xmax) l /\ total (fun r => vol (snd r)) l = vol (snd (box xmin xmax)).
Proof.
  intros D T L O Rl Dv. assert (H : List.length xmax = dim) by (rewrite <- L; symmetry; clear - O; induction O; cbn; auto).
  assert (Ax : forall r, sized dim r -> (axis r < dim)%nat). { intros (c, w) (Hc & Hw). destruct (rule_total C F dim D T (c, w) (Logic.conj Hc Hw)) as (R1 & R2 & _). cbn [fst snd] in *. rewrite (Rl c w Hc Hw) in R1. injection R1 as _ _ R1. now rewrite R1. }
  assert (Sb : sized dim (box xmin xmax)) by (unfold sized, box; cbn [fst snd]; rewrite !map_length, !combine_length; lia).
  split.
  - apply (tiles_ok dim val err axis Ax); [|exact Dv]. split; [exact Sb|]. unfold box. cbn [snd]. clear - O. induction O as [|x y xs ys O _ IH]; cbn; constructor; auto. cbn. lra.
  - assert (Hv : forall j r, sized dim r -> (j < dim)%nat -> vol (snd r) = vol (snd (lower j r)) + vol (snd (upper j r))).
    { intros j (c, w) (_ & Hw) J. cbn [lower upper snd fst] in *. clear - Hw J. revert j J w Hw. induction dim as [|n IH]; intros [|j] J [|x w] Hw; try lia; try discriminate; cbn [change vol]; [lra|]. rewrite (IH j) by (cbn in Hw; lia). lra. }
    induction Dv as [|l r rest Dv IH _ Pm _]; [unfold total; cbn; lra|]. rewrite <- IH, (total_perm _ _ _ Pm). unfold total. cbn [map fold_right].
    assert (Sl : Forall (sized dim) l). { clear - Dv Sb. induction Dv as [|l r rest Dv IH _ Pm _]; [now constructor|]. apply (Permutation_Forall Pm) in IH. apply Forall_cons_iff in IH as (Sr & Rest). constructor; [|constructor; [|exact Rest]]; unfold lower, upper, sized; cbn [fst snd]; rewrite !change_length; exact Sr. }
    apply (Permutation_Forall Pm) in Sl. apply Forall_cons_iff in Sl as (Sr & _). rewrite (Hv (axis r) r Sr (Ax r Sr)). lra.
Qed.
Print Assumptions C74_tiles.
(** With the weights of Genz and Malik polynomials of degree seven are integrated exactly, whatever the divisions; for degree five the error of a region is
    zero. *)
Theorem C74_exact K dim F xmin xmax : ideal K -> (2 <= dim <= 15)%nat -> poly dim 7 F -> List.length xmin = dim -> List.length xmax = dim ->
  integrate K dim F xmin xmax = Ok (Int (fst (box xmin xmax)) (snd (box xmin xmax)) F).
Proof.
  intros I D P L H. pose proof (ideal_complete K I) as T. destruct (integrate_ok K F dim D T xmin xmax L H) as (r & E & (l & Dv & -> & _)). rewrite E. f_equal.
  assert (Sb : sized dim (box xmin xmax)) by (unfold sized, box; cbn [fst snd]; rewrite !map_length, !combine_length; lia).
  rewrite <- (total_divided K F dim D T (fun r => Int (fst r) (snd r) F) (box xmin xmax) l Sb).
  - apply total_ext. intros r Ir. pose proof (divided_sized K F dim _ l Sb Dv) as Sl. rewrite Forall_forall in Sl. destruct (Sl r Ir) as (Hc & Hw). destruct (rule_exact K dim F (fst r) (snd r) I D Hc Hw P) as (v & e & ax & Er & Ev & _). unfold TopProofs.val. rewrite Er. exact Ev.
  - intros r j (Hc & Hw) J. now apply (Int_halves dim 7).
  - exact Dv.
Qed.
Print Assumptions C74_exact.
Theorem C74_rule K dim F c w : ideal K -> (2 <= dim <= 15)%nat -> poly dim 7 F -> List.length c = dim -> List.length w = dim ->
  exists e axis, integrate_fp K F dim c w = Ok (Int c w F, e, axis) /\ (poly dim 5 F -> e = 0).
Proof. intros I D P Hc Hw. destruct (rule_exact K dim F c w I D Hc Hw P) as (v & e & ax & E & -> & Z). now exists e, ax. Qed.
Print Assumptions C74_rule.
(** The decimals of the code agree with these weights to fifteen digits. *)
Theorem C74_table : exists K, ideal K /\ closely table K.
Proof. exists genz. split; [exact genz_ideal|exact table_closely]. Qed.
Print Assumptions C74_table.

(** A function of a number, over an interval: the integral is computed but not returned; the result is zero. *)
Theorem C74_one_refuted : exists (F : R -> R) xmin xmax qags, (forall f a b, qags f a b = RInt f a b) /\ integrate1 true qags F xmin xmax <> RInt F xmin xmax.
Proof.
  exists (fun _ => 1), 0, 1, (fun f a b => RInt f a b). split; [reflexivity|]. unfold integrate1. rewrite RInt_const. unfold scal. cbn. unfold mult. cbn. lra.
Qed.
Print Assumptions C74_one_refuted.
(** The tables of weights end at fifteen dimensions; for more they are read beyond their end. *)
Theorem C74_dim_refuted : exists dim, (2 <= dim)%nat /\ forall F xmin xmax, integrate table dim F xmin xmax = UB.
Proof.
  exists 16%nat. split; [lia|]. intros F xmin xmax. unfold integrate. assert (S8 : size 16 = 8%nat) by (vm_compute; reflexivity). rewrite S8. set (zero := Integral 0 0 0 _ _). change (repeat zero 8) with (zero :: repeat zero 7). set (e := set_ab _ _ zero). cbn [put bind]. change (2 * 8 + 2)%nat with 18%nat.
  set (s := State _ _ _ _ _ _ _ _ _). change (loop 18 (integrate_fp table F 16) 16 s) with (bind (body (integrate_fp table F 16) 16 s) (fun n => match n with Again s' => loop 17 (integrate_fp table F 16) 16 s' | Done r _ => Ok r end)).
  unfold body. change (get (slots s) (current s)) with (Ok e). cbn [bind]. assert (U : integrate_fp table F 16 (a e) (b e) = UB); [|rewrite U; reflexivity].
  unfold integrate_fp. cbv zeta. replace (nth_error (wpn1 table) (16 - 2)) with (@None R) by reflexivity. reflexivity.
Qed.
Print Assumptions C74_dim_refuted.

(** ** Examples *)
Definition cubic (x : list R) : R := nth 0 x 0 * nth 0 x 0 * nth 1 x 0.
Lemma cubic_poly : poly 2 3 cubic.
Proof.
  change 3%nat with (1 + 1 + 1)%nat. apply (poly_mul 2 (1 + 1) 1 (fun x => nth 0 x 0 * nth 0 x 0) (fun x => nth 1 x 0)); [apply (poly_mul 2 1 1 (fun x => nth 0 x 0) (fun x => nth 0 x 0))|]; apply poly_var; lia.
Qed.
(** x^2 y over [0,1] x [0,2] *)
Example ex_C74_exact : integrate genz 2 cubic (0 :: 0 :: nil) (1 :: 2 :: nil) = Ok (2 / 3).
Proof.
  rewrite (C74_exact genz 2 cubic); [|exact genz_ideal|lia|apply (poly_mono 2 3); [exact cubic_poly|lia]|reflexivity|reflexivity]. f_equal.
  rewrite (Int_terms 2 _ _ cubic ((1, [2; 1]%nat) :: nil)); [|reflexivity|reflexivity|constructor; [reflexivity|constructor]|].
  - unfold Rsum. cbn [map fold_right fst snd box combine pieces]. unfold piece. cbn [pow INR]. field.
  - intros [|x [|y [|z t]]] Ht; try discriminate. unfold cubic, ev, Rsum. cbn. ring.
Qed.
Example ex_C74_table : complete table /\ List.length [0; 0; 0] = 3%nat /\ Forall2 Rle [0; 0; 0] [1; 1; 2].
Proof. split; [exact table_complete|]. split; [reflexivity|]. repeat constructor; lra. Qed.
(** A function that is not a polynomial of degree seven: its integral is not found exactly, but over regions that fill the box. *)
Example ex_C74_adaptive : exists r, integrate table 2 (fun x => exp (nth 0 x 0 * nth 1 x 0)) (0 :: 0 :: nil) (1 :: 2 :: nil) = Ok r.
Proof. destruct (C74_adaptive table 2 (fun x => exp (nth 0 x 0 * nth 1 x 0)) (0 :: 0 :: nil) (1 :: 2 :: nil)) as (v & e & ax & l & E & _); [lia|exact table_complete|reflexivity|reflexivity|]. now exists (total v l). Qed.
Example ex_C74_rule : exists ax, integrate_fp genz cubic 2 (1 / 2 :: 1 :: nil) (1 / 2 :: 1 :: nil) = Ok (Int (1 / 2 :: 1 :: nil) (1 / 2 :: 1 :: nil) cubic, 0, ax).
Proof.
  destruct (C74_rule genz 2 cubic (1 / 2 :: 1 :: nil) (1 / 2 :: 1 :: nil)) as (e & ax & E & Z); [exact genz_ideal|lia|apply (poly_mono 2 3); [exact cubic_poly|lia]|reflexivity|reflexivity|]. exists ax. rewrite E, Z; [reflexivity|]. apply (poly_mono 2 3); [exact cubic_poly|lia].
Qed.
(** A square of side 2 around 0, divided once *)
Example ex_C74_tiles : divided (fun _ => 1) (fun _ => 1) (fun _ => 1%nat) (box [-1; -1] [1; 1]) [([0; -1 / 2], [1; 1 / 2]); ([0; 1 / 2], [1; 1 / 2])] /\
  inside ([0; -1 / 2], [1; 1 / 2]) [0; -1 / 4].
Proof.
  split.
  - replace [([0; -1 / 2], [1; 1 / 2]); ([0; 1 / 2], [1; 1 / 2])] with [lower 1 (box [-1; -1] [1; 1]); upper 1 (box [-1; -1] [1; 1])].
    + apply (divided_once (fun _ => 1) (fun _ => 1) (fun _ => 1%nat) _ (box [-1; -1] [1; 1] :: nil) (box [-1; -1] [1; 1]) nil); [apply divided_not|intros [_ G]; cbn in G; lia|reflexivity|intros; lra].
    + unfold lower, upper, box. cbn [map combine change nth fst snd]. repeat (f_equal; try field).
  - unfold inside. cbn [combine fst snd]. constructor; [|constructor; [|constructor]]; cbn [fst snd]; unfold Rabs; destruct Rcase_abs; lra.
Qed.
