(** C48. *)
From Coq Require Import Reals List Lra Lia.
From Verif.Common Require Import Prelude.
From Verif.Phsp Require Import Model Proofs.
From Verif.Discrete Require Import Model Spec Proofs.
Import ListNotations.
Local Open Scope R_scope.

(** For weights that are not negative and have a positive sum: every number of [0, 1) gives an index, and index j is given by a set of numbers of
    length weights[j] / sum. *)
Theorem C48_length ws fuel : Forall (fun w => 0 <= w) ws -> 0 < total ws -> (List.length ws <= fuel)%nat ->
  exists ps bs, probabilities ws = Some ps /\ create_buckets fuel ps = Ok bs
    /\ (forall u, 0 <= u < 1 -> exists j, draw bs u = Ok j /\ (min_index ps <= j <= max_index ps)%nat /\ (j < List.length ws)%nat)
    /\ forall j, has_length (fun u => draw bs u = Ok j) (nth j ws 0 / total ws).
Proof.
  intros W T F. destruct (probabilities_ok ws W T) as (ps & Ep & Lp & L0 & P0 & Tp & Np).
  destruct (buckets_ok (List.length ws) L0 ps fuel Lp F P0 Tp) as (bs & Eb & Lb & Wb & Gb & Cb).
  exists ps, bs. split; auto. split; auto. split.
  - intros u U. destruct (draw_ok (List.length ws) L0 bs u Lb Wb Gb U) as (k & b & _ & _ & Ed & Lt). eexists. split; [exact Ed|]. split; auto.
    unfold min_index, max_index. destruct ps; cbn [List.length] in *; lia.
  - intros j. rewrite <- Np, <- Cb. apply (draw_length (List.length ws) L0); auto.
Qed.
Print Assumptions C48_length.

Example C48_example : Forall (fun w => 0 <= w) [1; 2; 1] /\ 0 < total [1; 2; 1] /\ nth 1 [1; 2; 1] 0 / total [1; 2; 1] = 1 / 2.
Proof. unfold total. cbn. split; [repeat apply Forall_cons; auto; lra|]. split; [lra|field]. Qed.

(** probabilities() are the weights divided by their sum, and add up to one. *)
Theorem C48_probabilities ws : Forall (fun w => 0 <= w) ws -> 0 < total ws ->
  exists ps, probabilities ws = Some ps /\ List.length ps = List.length ws /\ total ps = 1 /\ forall j, nth j ps 0 = nth j ws 0 / total ws.
Proof. intros W T. destruct (probabilities_ok ws W T) as (ps & H1 & H2 & _ & _ & H3 & H4). eauto 6. Qed.
Print Assumptions C48_probabilities.

(** Without weights, index 0 is returned though there is nothing to choose from. *)
Theorem C48_empty_refuted : exists ws, probabilities ws = Some [] /\ ws = [] /\ forall fuel, exists bs, create_buckets fuel [] = Ok bs /\ forall u, 0 <= u < 1 -> draw bs u = Ok 0%nat.
Proof.
  exists []. split; [reflexivity|]. split; [reflexivity|]. intros fuel. exists [(0%nat, 0%nat, 0)]. split; [reflexivity|]. intros u U.
  unfold draw. cbn [List.length INR]. rewrite Rmult_1_l.
  assert (E : Int_part u = 0%Z).
  { pose proof (base_Int_part u) as [B1 B2]. assert (-1 < IZR (Int_part u) < 1) by lra. destruct H as [H1 H2].
    change (-1) with (IZR (-1)) in H1. apply lt_IZR in H1. apply lt_IZR in H2. lia. }
  rewrite E. cbn. destruct (rlt u 0); reflexivity.
Qed.
Print Assumptions C48_empty_refuted.

(** A default-constructed distribution has no buckets: drawing from it reads past the end of a vector. *)
Theorem C48_default_refuted : exists bs, forall u, draw bs u = UB.
Proof. exists []. intros u. unfold draw. destruct (Z.to_nat _); reflexivity. Qed.
Print Assumptions C48_default_refuted.
