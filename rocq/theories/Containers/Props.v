From Verif.Common Require Import Prelude Writes.
From Verif.Containers Require Import Model Spec Proofs.
Local Open Scope nat_scope.

(** A loop over a container whose generator gives blocks of the same size: the elements of the generator in order, none left out or twice, as many as asked for, and the generator
    is called no more often than needed. *)
Theorem C110_iterate : forall (T : Type) (g : nat -> list T) total B, 0 < B -> (forall k, List.length (g k) = B) -> 0 < total ->
  exists c out, iterate g total (construct g) = Ok (c, out) /\ out = firstn total (stream g (calls c)) /\ List.length out = total /\ blocks total B (calls c).
Proof.
  intros T g total B HB HG L. destruct (walk_ok g total B HB HG total 0) as (out & W & N & V); [lia|exact L|].
  assert (C : construct g = at_pos g B 0) by (unfold construct, refresh, at_pos; cbn [calls]; rewrite Nat.div_small by exact HB; reflexivity).
  unfold iterate. rewrite C, W. eexists _, _. split; [reflexivity|]. pose proof (blocks_of total B HB L) as K. cbn [calls at_pos]. split; [|split; [exact N|exact K]].
  apply (nth_error_ext out). intro i. destruct (Nat.lt_ge_cases i total) as [I|I].
  - rewrite V by exact I. cbn [Nat.add]. symmetry. etransitivity; [apply nth_error_firstn'; exact I|]. apply (stream_nth g B HB HG). destruct K as [K _]. lia.
  - rewrite (proj2 (nth_error_None out i)) by lia. symmetry. apply nth_error_None. rewrite firstn_length. lia.
Qed.
Print Assumptions C110_iterate.

(** A block without elements is undefined. *)
Theorem C110_empty : forall (T : Type) (g : nat -> list T) total, g 0 = [] -> 0 < total -> iterate g total (construct g) = UB.
Proof. intros T g total E L. destruct total; [lia|]. unfold iterate, construct, refresh. cbn [calls]. rewrite E. reflexivity. Qed.
Print Assumptions C110_empty.

(** A small vector holds what is given to it, in a list or one by one, up to its size, and more is undefined. *)
Theorem C110_small : forall n l, push_all l (empty_ n) = of_list n l /\
  (List.length l <= n -> exists v, of_list n l = Ok v /\ elements v = Ok l /\ List.length (store v) = n) /\ (n < List.length l -> of_list n l = UB).
Proof.
  intros n l. assert (O : of_list n l = if List.length l <=? n then Ok (Small (l ++ repeat 0%Z (n - List.length l)) (List.length l)) else UB).
  { unfold of_list, insert, empty_. cbn [store size]. pose proof (copy_app l [] n) as CA; cbn [List.length app] in CA; rewrite CA; clear CA. destruct (List.length l <=? n); reflexivity. }
  rewrite O. split; [|split].
  - unfold empty_. destruct (Nat.leb_spec (List.length l) n) as [L|L]; [exact (push_all_app l [] n L)|exact (push_all_full l [] n L)].
  - intro L. rewrite (proj2 (Nat.leb_le _ _) L). eexists. split; [reflexivity|]. unfold elements. cbn [store size]. rewrite !app_length, repeat_length.
    rewrite (proj2 (Nat.leb_le (List.length l) _)) by lia. rewrite firstn_app, firstn_all, Nat.sub_diag. cbn [firstn]. rewrite app_nil_r. split; [reflexivity|lia].
  - intro L. rewrite (proj2 (Nat.leb_gt _ _) L). reflexivity.
Qed.
Print Assumptions C110_small.

(** Vectors of the same size are equal exactly if their elements are. *)
Theorem C110_equal_partial : forall n l l' v v', of_list n l = Ok v -> of_list n l' = Ok v' -> List.length l = List.length l' -> equal v v' = true <-> l = l'.
Proof.
  intros n l l' v v' H H' E. assert (O : forall m w, of_list n m = Ok w -> store w = m ++ repeat 0%Z (n - List.length m)).
  { intros m w. unfold of_list, insert, empty_. cbn [store size]. pose proof (copy_app m [] n) as CA; cbn [List.length app] in CA; rewrite CA; clear CA. destruct (List.length m <=? n); [|discriminate]. cbn [bind]. intro G. now injection G as <-. }
  apply O in H. apply O in H'. unfold equal. rewrite H, H'. destruct (list_eq_dec _ _ _) as [D|D]; split; try reflexivity; try discriminate; intro G.
  - rewrite <- E in D. apply app_inv_tail in D. now symmetry.
  - exfalso. apply D. now rewrite G.
Qed.
Print Assumptions C110_equal_partial.

(** ** Examples *)
Definition three (k : nat) : list nat := [3 * k; 3 * k + 1; 3 * k + 2].
Example C110_iterate_ex : exists c, iterate three 7 (construct three) = Ok (c, [0; 1; 2; 3; 4; 5; 6]) /\ calls c = 3.
Proof. eexists. split; reflexivity. Qed.
Example C110_small_ex : push_all [3; 1; 2]%Z (empty_ 4) = Ok (Small [3; 1; 2; 0]%Z 3) /\ of_list 2 [3; 1; 2]%Z = UB.
Proof. split; reflexivity. Qed.

(** Blocks of different sizes: elements are left out (here 1), since the place in the block is that of blocks of its own size (AmpGen/DynamicContainer.h:63, 42). *)
Definition uneven (k : nat) : list nat := match k with 0 => [0; 1] | _ => [10; 11; 12] end.
Theorem C110_uneven_refuted : exists (g : nat -> list nat) total c out, (forall k, g k <> []) /\ iterate g total (construct g) = Ok (c, out) /\ out <> firstn total (stream g total).
Proof. exists uneven, 5. do 2 eexists. split; [intros [|k]; discriminate|]. split; [vm_compute; reflexivity|]. vm_compute. discriminate. Qed.
Print Assumptions C110_uneven_refuted.

(** A second loop over the same container starts with the last block of the first, not with the first elements nor with new ones (AmpGen/DynamicContainer.h:60). *)
Theorem C110_again_refuted : exists (g : nat -> list nat) total c c' out out', iterate g total (construct g) = Ok (c, out) /\ iterate g total c = Ok (c', out') /\
  out' <> out /\ (exists x, In x out /\ In x out') /\ (forall k, NoDup (g k)) /\ (forall k k' x, In x (g k) -> In x (g k') -> k = k').
Proof.
  exists three, 6, (Dynamic [3; 4; 5] 2), (Dynamic [6; 7; 8] 3), [0; 1; 2; 3; 4; 5], [3; 4; 5; 6; 7; 8]. split; [vm_compute; reflexivity|]. split; [vm_compute; reflexivity|]. split; [discriminate|]. split; [exists 3; cbn; tauto|]. split.
  - intro k. unfold three. repeat (constructor; [cbn [In]; lia|]). constructor.
  - intros k k' x. unfold three. cbn [In]. intros [H|[H|[H|[]]]] [H'|[H'|[H'|[]]]]; lia.
Qed.
Print Assumptions C110_again_refuted.

(** The increment of a constant iterator does not fetch the next block: m_pos + 1 % size is not what is meant, and the first block is given again
    (AmpGen/DynamicContainer.h:34). *)
Theorem C110_const_refuted : exists (g : nat -> list nat) total c out, walk (increment_const g total) total (construct g) 0 = Ok (c, out) /\ calls c = 1 /\ out = g 0 ++ g 0 /\ g 0 <> g 1.
Proof. exists three, 6, (Dynamic [0; 1; 2] 1), [0; 1; 2; 0; 1; 2]. split; [vm_compute; reflexivity|]. split; [reflexivity|]. split; [reflexivity|discriminate]. Qed.
Print Assumptions C110_const_refuted.

(** Vectors of different sizes are equal if the longer one has zeros at the end, as in the lists of final states of a decay chain, where zero is the first particle
    (AmpGen/SmallVector.h:32-35). *)
Theorem C110_equal_refuted : exists n v v', of_list n [1; 0]%Z = Ok v /\ of_list n [1]%Z = Ok v' /\ equal v v' = true /\ elements v <> elements v'.
Proof. exists 3, (Small [1; 0; 0]%Z 2), (Small [1; 0; 0]%Z 1). split; [reflexivity|]. split; [reflexivity|]. split; [reflexivity|discriminate]. Qed.
Print Assumptions C110_equal_refuted.
