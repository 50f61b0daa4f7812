(** The constants of the code are those of Genz and Malik. *)
From Verif.Common Require Import Prelude.
From Coq Require Import Reals Lra.
From Verif.Integrate Require Import Model PolySpec TopProofs.
Local Open Scope R_scope.

Definition genz : constants := {| xl2 := sqrt (9 / 70); xl4 := sqrt (9 / 10); xl5 := sqrt (9 / 19); w2 := 980 / 6561; w4 := 200 / 19683; wp2 := 245 / 486; wp4 := 25 / 729;
  wn1 := map (fun n => (12824 - 9120 * INR n + 400 * INR n ^ 2) / 19683) (seq 2 14);
  wn3 := map (fun n => (1820 - 400 * INR n) / 19683) (seq 2 14);
  wn5 := map (fun n => 6859 / 19683 / 2 ^ n) (seq 2 14);
  wpn1 := map (fun n => (729 - 950 * INR n + 50 * INR n ^ 2) / 729) (seq 2 14);
  wpn3 := map (fun n => (265 - 100 * INR n) / 1458) (seq 2 14) |}.
Lemma nth_genz {A} (f : nat -> A) n : (2 <= n <= 15)%nat -> nth_error (map f (seq 2 14)) (n - 2) = Some (f n).
Proof. intro D. pattern n. apply range; [exact D|..]; reflexivity. Qed.
Lemma genz_ideal : ideal genz.
Proof.
  constructor; try reflexivity; try (intros n D; cbn [wn1 wn3 wn5 wpn1 wpn3 genz]; now rewrite nth_genz); cbn [xl2 xl4 xl5 genz]; rewrite pow2_sqrt; lra.
Qed.
Lemma ideal_complete K : ideal K -> complete K.
Proof.
  intro I. assert (D : (2 <= 15 <= 15)%nat) by lia. pose proof (ideal_wn1 K I 15 D) as A. pose proof (ideal_wn3 K I 15 D) as B. pose proof (ideal_wn5 K I 15 D) as C. pose proof (ideal_wpn1 K I 15 D) as E. pose proof (ideal_wpn3 K I 15 D) as F.
  assert (X : forall (l : list R) i x, nth_error l i = Some x -> (S i <= List.length l)%nat) by (intros l i x H; apply nth_error_Some; congruence).
  apply X in A, B, C, E, F. unfold complete. cbn in *. lia.
Qed.
Lemma table_complete : complete table. Proof. unfold complete. cbn. lia. Qed.
Lemma close_sqrt a x : 0 <= x -> 3 / 10 ^ 16 <= a -> (a - 3 / 10 ^ 16) * (a - 3 / 10 ^ 16) <= x <= (a + 3 / 10 ^ 16) * (a + 3 / 10 ^ 16) -> close a (sqrt x).
Proof.
  unfold close. set (e := 3 / 10 ^ 16). assert (E : 0 < e) by (unfold e; apply Rdiv_lt_0_compat; [lra|apply pow_lt; lra]). clearbody e. intros X A [L U].
  apply sqrt_le_1 in L; [|nra|exact X]. apply sqrt_le_1 in U; [|exact X|nra]. rewrite sqrt_square in L by lra. rewrite sqrt_square in U by lra. apply Rabs_le. lra.
Qed.
Ltac dec_close := unfold close, dec; cbn [seq INR pow]; apply Rabs_le; split; lra.
Lemma table_closely : closely table genz.
Proof.
  unfold closely. cbn [xl2 xl4 xl5 w2 w4 wp2 wp4 wn1 wn3 wn5 wpn1 wpn3 table genz seq map].
  split; [apply close_sqrt; unfold dec; cbn [pow]; lra|]. split; [apply close_sqrt; unfold dec; cbn [pow]; lra|]. split; [apply close_sqrt; unfold dec; cbn [pow]; lra|].
  do 4 (split; [reflexivity|]). repeat split; repeat (constructor; [dec_close|]); constructor.
Qed.
