(** Polynomials and their integrals. *)
From Verif.Common Require Import Prelude.
From Coq Require Import Reals.
From Coquelicot Require Import Hierarchy RInt.
From Verif.Integrate Require Import Model.
Local Open Scope R_scope.

(** Polynomials in n variables of degree at most d *)
Inductive poly (n : nat) : nat -> (list R -> R) -> Prop :=
| poly_const c d : poly n d (fun _ => c)
| poly_var j d : (j < n)%nat -> (1 <= d)%nat -> poly n d (fun x => nth j x 0)
| poly_add d f g : poly n d f -> poly n d g -> poly n d (fun x => f x + g x)
| poly_mul d e f g : poly n d f -> poly n e g -> poly n (d + e) (fun x => f x * g x)
| poly_ext d f g : poly n d f -> (forall x, List.length x = n -> f x = g x) -> poly n d g.
(** The integral over a region: one variable after the other *)
Fixpoint Int (c w : list R) (f : list R -> R) : R :=
  match c, w with
  | c0 :: cs, w0 :: ws => RInt (fun x => Int cs ws (fun xs => f (x :: xs))) (c0 - w0) (c0 + w0)
  | _, _ => f []
  end.
(** The nodes and weights of Genz and Malik for two to fifteen dimensions. The nodes are what their squares say. *)
Record ideal (K : constants) : Prop := {
  ideal_xl2 : xl2 K ^ 2 = 9 / 70; ideal_xl4 : xl4 K ^ 2 = 9 / 10; ideal_xl5 : xl5 K ^ 2 = 9 / 19;
  ideal_w2 : w2 K = 980 / 6561; ideal_w4 : w4 K = 200 / 19683; ideal_wp2 : wp2 K = 245 / 486; ideal_wp4 : wp4 K = 25 / 729;
  ideal_wn1 n : (2 <= n <= 15)%nat -> nth_error (wn1 K) (n - 2) = Some ((12824 - 9120 * INR n + 400 * INR n ^ 2) / 19683);
  ideal_wn3 n : (2 <= n <= 15)%nat -> nth_error (wn3 K) (n - 2) = Some ((1820 - 400 * INR n) / 19683);
  ideal_wn5 n : (2 <= n <= 15)%nat -> nth_error (wn5 K) (n - 2) = Some (6859 / 19683 / 2 ^ n);
  ideal_wpn1 n : (2 <= n <= 15)%nat -> nth_error (wpn1 K) (n - 2) = Some ((729 - 950 * INR n + 50 * INR n ^ 2) / 729);
  ideal_wpn3 n : (2 <= n <= 15)%nat -> nth_error (wpn3 K) (n - 2) = Some ((265 - 100 * INR n) / 1458) }.
(** Entries for two to fifteen dimensions *)
Definition complete (K : constants) : Prop :=
  (14 <= List.length (wn1 K) /\ 14 <= List.length (wn3 K) /\ 14 <= List.length (wn5 K) /\ 14 <= List.length (wpn1 K) /\ 14 <= List.length (wpn3 K))%nat.
(** Constants that agree to fifteen decimals *)
Definition close (x y : R) : Prop := Rabs (x - y) <= 3 / 10 ^ 16.
Definition closely (K K' : constants) : Prop :=
  close (xl2 K) (xl2 K') /\ close (xl4 K) (xl4 K') /\ close (xl5 K) (xl5 K') /\ w2 K = w2 K' /\ w4 K = w4 K' /\ wp2 K = wp2 K' /\ wp4 K = wp4 K' /\
  Forall2 close (wn1 K) (wn1 K') /\ Forall2 close (wn3 K) (wn3 K') /\ Forall2 close (wn5 K) (wn5 K') /\ Forall2 close (wpn1 K) (wpn1 K') /\ Forall2 close (wpn3 K) (wpn3 K').
