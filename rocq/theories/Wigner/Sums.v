(** The sums of the Racah formula in real numbers, without reference to the code. *)
From Coq Require Import Reals Lra List ZArith Lia Factorial.
Import ListNotations.
Local Open Scope R_scope.

(** 1/z!, zero for negative z *)
Definition F (z : Z) : R := INR (fact (Z.to_nat z)).
Definition rf (z : Z) : R := if (z <? 0)%Z then 0 else / F z.
Lemma F_pos z : 0 < F z.
Proof. apply INR_fact_lt_0. Qed.
Lemma F_neq z : F z <> 0.
Proof. pose proof (F_pos z). lra. Qed.
Lemma F_succ z : (0 <= z)%Z -> F (z + 1) = IZR (z + 1) * F z.
Proof.
  intro H. unfold F. replace (Z.to_nat (z + 1)) with (S (Z.to_nat z)) by lia. rewrite fact_simpl, mult_INR. f_equal. rewrite INR_IZR_INZ. f_equal. lia.
Qed.
Lemma rf_neg z : (z < 0)%Z -> rf z = 0.
Proof. intro H. unfold rf. destruct (Z.ltb_spec z 0); [reflexivity|lia]. Qed.
Lemma rf_pos z : (0 <= z)%Z -> rf z = / F z.
Proof. intro H. unfold rf. destruct (Z.ltb_spec z 0); [lia|reflexivity]. Qed.
Lemma rf_step z : IZR z * rf z = rf (z - 1).
Proof.
  destruct (Z.ltb_spec z 0); [rewrite !rf_neg by lia; ring|]. destruct (Z.eq_dec z 0) as [-> | N]; [rewrite (rf_neg (0 - 1)) by lia; ring|].
  rewrite !rf_pos by lia. replace z with ((z - 1) + 1)%Z at 1 2 by lia. rewrite F_succ by lia. replace (z - 1 + 1)%Z with z by lia. field. split; [apply F_neq|]. apply IZR_neq. lia.
Qed.
Lemma rf_step' z : rf z = IZR (z + 1) * rf (z + 1).
Proof. rewrite rf_step. f_equal. lia. Qed.
Lemma F_rf z : (0 <= z)%Z -> F z * rf z = 1.
Proof. intro H. rewrite rf_pos by exact H. field. apply F_neq. Qed.

(** sums over 0..N *)
Fixpoint sig (N : nat) (f : nat -> R) : R := match N with O => f O | S k => sig k f + f (S k) end.
Lemma sig_ext N f g : (forall i, (i <= N)%nat -> f i = g i) -> sig N f = sig N g.
Proof. induction N as [|N IH]; intro H; cbn; [apply H; lia|]. rewrite IH, H by (auto; lia). reflexivity. Qed.
Lemma sig_plus N f g : sig N (fun i => f i + g i) = sig N f + sig N g.
Proof. induction N as [|N IH]; cbn; [reflexivity|]. rewrite IH. ring. Qed.
Lemma sig_scal N c f : sig N (fun i => c * f i) = c * sig N f.
Proof. induction N as [|N IH]; cbn; [reflexivity|]. rewrite IH. ring. Qed.
Lemma sig_shift N f : sig (S N) f = f O + sig N (fun i => f (S i)).
Proof. induction N as [|N IH]; [reflexivity|]. change (sig (S (S N)) f) with (sig (S N) f + f (S (S N))). rewrite IH. cbn. ring. Qed.
Lemma sig_rev N f : sig N f = sig N (fun i => f (N - i)%nat).
Proof.
  revert f; induction N as [|N IH]; intro f; [reflexivity|]. rewrite sig_shift. change (sig (S N) (fun i => f (S N - i)%nat)) with (sig N (fun i => f (S N - i)%nat) + f (S N - S N)%nat).
  rewrite Nat.sub_diag, (IH (fun i => f (S i))). rewrite Rplus_comm. f_equal. apply sig_ext. intros i Hi. f_equal. lia.
Qed.
Lemma sig_zero N f : (forall i, (i <= N)%nat -> f i = 0) -> sig N f = 0.
Proof. intro H. rewrite (sig_ext N f (fun _ => 0 * 0)) by (intros; rewrite H by assumption; ring). rewrite sig_scal. ring. Qed.
Lemma sig_more N k f : (forall i, (N < i <= N + k)%nat -> f i = 0) -> sig (N + k) f = sig N f.
Proof. induction k as [|k IH]; intro H; [now rewrite Nat.add_0_r|]. rewrite Nat.add_succ_r. cbn. rewrite IH, H by (intros; try apply H; lia). ring. Qed.
Lemma sig_one N f i : (i <= N)%nat -> (forall k, (k <= N)%nat -> k <> i -> f k = 0) -> sig N f = f i.
Proof.
  intros Hi H. induction N as [|N IH]; cbn; [f_equal; lia|]. destruct (Nat.eq_dec i (S N)) as [-> | E].
  - rewrite sig_zero; [ring|]. intros k Hk. apply H; lia.
  - rewrite IH, (H (S N)) by (auto; lia). ring.
Qed.
Lemma sig_swap N M f : sig N (fun i => sig M (fun k => f i k)) = sig M (fun k => sig N (fun i => f i k)).
Proof. induction N as [|N IH]; cbn; [apply sig_ext; reflexivity|]. rewrite IH, <- sig_plus. reflexivity. Qed.

Definition sg (i : nat) : R := if Nat.even i then 1 else -1.
Lemma sg_S i : sg (S i) = - sg i.
Proof. unfold sg. rewrite Nat.even_succ, <- Nat.negb_even. destruct (Nat.even i); cbn; ring. Qed.
Lemma sg_sq i : sg i * sg i = 1.
Proof. unfold sg. destruct (Nat.even i); ring. Qed.
Lemma sg_sub N i : (i <= N)%nat -> sg (N - i) = sg N * sg i.
Proof. intro H. unfold sg. rewrite Nat.even_sub by exact H. destruct (Nat.even N), (Nat.even i); cbn; ring. Qed.

(** The sum of the formula: S(n; a, b; c, d) *)
Definition T (n a b c d : Z) (i : nat) : R :=
  let v := Z.of_nat i in sg i * (rf v * rf (n - v) * rf (a - v) * rf (b - v) * rf (c + v) * rf (d + v)).
Definition SS (n a b c d : Z) : R := sig (Z.to_nat n) (T n a b c d).
Lemma T_zero n a b c d i : (Z.of_nat i > n)%Z \/ (Z.of_nat i > a)%Z \/ (Z.of_nat i > b)%Z \/ (c + Z.of_nat i < 0)%Z \/ (d + Z.of_nat i < 0)%Z -> T n a b c d i = 0.
Proof.
  intro H. unfold T. destruct H as [H | [H | [H | [H | H]]]]; [rewrite (rf_neg (n - _))|rewrite (rf_neg (a - _))|rewrite (rf_neg (b - _))|rewrite (rf_neg (c + _))|rewrite (rf_neg (d + _))]; try lia; ring.
Qed.
Lemma SS_range n a b c d N : (Z.to_nat n <= N)%nat -> (n <= Z.of_nat N)%Z -> SS n a b c d = sig N (T n a b c d).
Proof.
  intros H H'. unfold SS. replace N with (Z.to_nat n + (N - Z.to_nat n))%nat by lia. symmetry. apply sig_more. intros i Hi. apply T_zero. lia.
Qed.
Lemma SS_zero n a b c d : (forall v, (0 <= v <= n)%Z -> (v > a \/ v > b \/ c + v < 0 \/ d + v < 0)%Z) -> SS n a b c d = 0.
Proof. intro H. unfold SS. apply sig_zero. intros i Hi. apply T_zero. destruct (Z.ltb_spec n (Z.of_nat i)); [lia|]. pose proof (H (Z.of_nat i)). lia. Qed.
Lemma SS_swap_ab n a b c d : SS n a b c d = SS n b a c d.
Proof. apply sig_ext. intros i _. unfold T. ring. Qed.
Lemma SS_swap_cd n a b c d : SS n a b c d = SS n a b d c.
Proof. apply sig_ext. intros i _. unfold T. ring. Qed.
Lemma SS_swap_nb n a b c d : SS n a b c d = SS b a n c d.
Proof.
  set (N := Nat.max (Z.to_nat n) (Z.to_nat b)). rewrite (SS_range n a b c d N), (SS_range b a n c d N) by lia. apply sig_ext. intros i _. unfold T. ring.
Qed.
Lemma SS_rev n a b c d : (0 <= n)%Z -> SS n a b c d = sg (Z.to_nat n) * SS n (c + n) (d + n) (a - n) (b - n).
Proof.
  intro H. unfold SS. rewrite sig_rev, <- sig_scal. apply sig_ext. intros i Hi. unfold T. rewrite sg_sub by exact Hi.
  replace (Z.of_nat (Z.to_nat n - i)) with (n - Z.of_nat i)%Z by lia. set (v := Z.of_nat i).
  replace (n - (n - v))%Z with v by lia. replace (a - (n - v))%Z with (a - n + v)%Z by lia. replace (b - (n - v))%Z with (b - n + v)%Z by lia.
  replace (c + (n - v))%Z with (c + n - v)%Z by lia. replace (d + (n - v))%Z with (d + n - v)%Z by lia. ring.
Qed.

(** The ladder relation. *)
Lemma ladder n a b c d : (0 <= n)%Z ->
  IZR (b + c) * SS n a b c d = IZR (a + 1) * SS n (a + 1) b (c - 1) d + IZR (d + 1 + n) * SS n a (b - 1) c (d + 1).
Proof.
  intro Hn. set (N := Z.to_nat n).
  set (U := fun i : nat => IZR (Z.of_nat i) * T n (a + 1) b (c - 1) d i). set (V := fun i : nat => IZR (n - Z.of_nat i) * T n a (b - 1) c (d + 1) i).
  assert (Z0 : sig N U + sig N V = 0).
  { destruct N as [|k] eqn:EN.
    - cbn. unfold U, V. replace (n - Z.of_nat 0)%Z with 0%Z by lia. cbn [Z.of_nat]. ring.
    - rewrite sig_shift. change (sig (S k) V) with (sig k V + V (S k)).
      assert (U0 : U O = 0) by (unfold U; cbn [Z.of_nat]; ring). assert (Vn : V (S k) = 0) by (unfold V; replace (n - Z.of_nat (S k))%Z with 0%Z by lia; ring). rewrite U0, Vn.
      assert (E : sig k (fun i => U (S i)) + sig k V = 0); [|lra]. rewrite <- sig_plus. apply sig_zero. intros i Hi. unfold U, V, T. rewrite sg_S. rewrite Nat2Z.inj_succ. set (v := Z.of_nat i).
      replace (Z.succ v) with (v + 1)%Z by lia.
      replace (IZR (v + 1) * (- sg i * (rf (v + 1) * rf (n - (v + 1)) * rf (a + 1 - (v + 1)) * rf (b - (v + 1)) * rf (c - 1 + (v + 1)) * rf (d + (v + 1)))))
        with (- sg i * ((IZR (v + 1) * rf (v + 1)) * rf (n - (v + 1)) * rf (a + 1 - (v + 1)) * rf (b - (v + 1)) * rf (c - 1 + (v + 1)) * rf (d + (v + 1)))) by ring.
      replace (IZR (n - v) * (sg i * (rf v * rf (n - v) * rf (a - v) * rf (b - 1 - v) * rf (c + v) * rf (d + 1 + v))))
        with (sg i * (rf v * (IZR (n - v) * rf (n - v)) * rf (a - v) * rf (b - 1 - v) * rf (c + v) * rf (d + 1 + v))) by ring.
      rewrite !rf_step. replace (v + 1 - 1)%Z with v by lia. replace (n - (v + 1))%Z with (n - v - 1)%Z by lia. replace (a + 1 - (v + 1))%Z with (a - v)%Z by lia.
      replace (b - (v + 1))%Z with (b - 1 - v)%Z by lia. replace (c - 1 + (v + 1))%Z with (c + v)%Z by lia. replace (d + (v + 1))%Z with (d + 1 + v)%Z by lia. ring. }
  unfold SS. fold N. rewrite <- !sig_scal, <- sig_plus.
  transitivity (sig N (fun i => IZR (b + c) * T n a b c d i) + (sig N U + sig N V)); [rewrite Z0; ring|]. rewrite <- !sig_plus. apply sig_ext. intros i _. unfold U, V, T. set (v := Z.of_nat i).
  assert (E1 : IZR (a + 1) * (sg i * (rf v * rf (n - v) * rf (a + 1 - v) * rf (b - v) * rf (c - 1 + v) * rf (d + v))) =
               IZR (c + v) * (sg i * (rf v * rf (n - v) * rf (a - v) * rf (b - v) * rf (c + v) * rf (d + v))) + IZR v * (sg i * (rf v * rf (n - v) * rf (a + 1 - v) * rf (b - v) * rf (c - 1 + v) * rf (d + v)))).
  { replace (a + 1)%Z with ((a + 1 - v) + v)%Z at 1 by lia. rewrite plus_IZR, Rmult_plus_distr_r. f_equal.
    replace (IZR (a + 1 - v) * (sg i * (rf v * rf (n - v) * rf (a + 1 - v) * rf (b - v) * rf (c - 1 + v) * rf (d + v)))) with (sg i * (rf v * rf (n - v) * (IZR (a + 1 - v) * rf (a + 1 - v)) * rf (b - v) * rf (c - 1 + v) * rf (d + v))) by ring.
    rewrite rf_step. replace (a + 1 - v - 1)%Z with (a - v)%Z by lia. replace (c - 1 + v)%Z with (c + v - 1)%Z by lia. rewrite <- (rf_step (c + v)). ring. }
  assert (E2 : IZR (d + 1 + n) * (sg i * (rf v * rf (n - v) * rf (a - v) * rf (b - 1 - v) * rf (c + v) * rf (d + 1 + v))) =
               IZR (b - v) * (sg i * (rf v * rf (n - v) * rf (a - v) * rf (b - v) * rf (c + v) * rf (d + v))) + IZR (n - v) * (sg i * (rf v * rf (n - v) * rf (a - v) * rf (b - 1 - v) * rf (c + v) * rf (d + 1 + v)))).
  { replace (d + 1 + n)%Z with ((d + 1 + v) + (n - v))%Z at 1 by lia. rewrite plus_IZR, Rmult_plus_distr_r. f_equal.
    replace (IZR (d + 1 + v) * (sg i * (rf v * rf (n - v) * rf (a - v) * rf (b - 1 - v) * rf (c + v) * rf (d + 1 + v)))) with (sg i * (rf v * rf (n - v) * rf (a - v) * rf (b - 1 - v) * rf (c + v) * (IZR (d + 1 + v) * rf (d + 1 + v)))) by ring.
    rewrite rf_step. replace (d + 1 + v - 1)%Z with (d + v)%Z by lia. replace (b - 1 - v)%Z with (b - v - 1)%Z by lia. rewrite <- (rf_step (b - v)). ring. }
  rewrite E1, E2. replace (b + c)%Z with ((c + v) + (b - v))%Z by lia. rewrite plus_IZR. ring.
Qed.

(** ** The states of total spin (A+B)/2 - n made of spins A/2 and B/2, by x = j1+m1 and y = j2+m2. *)
Section states.
Context (A B : Z) (HA : (0 <= A)%Z) (HB : (0 <= B)%Z).
Definition St (n x y : Z) : R := SS n (A - x) y (x - n) (B - y - n).
Definition w (x y : Z) : R := F x * F (A - x) * F y * F (B - y).
Lemma St_zero n x y : (x < 0 \/ A < x \/ y < 0 \/ B < y \/ x + y < n \/ A + B - n < x + y \/ A < n \/ B < n)%Z -> St n x y = 0.
Proof. intro H. apply SS_zero. intros v Hv. lia. Qed.
Lemma raise n x y : (0 <= n)%Z -> IZR (x + y - n) * St n x y = IZR (A - x + 1) * St n (x - 1) y + IZR (B - y + 1) * St n x (y - 1).
Proof.
  intro Hn. unfold St. pose proof (ladder n (A - x) y (x - n) (B - y - n) Hn) as L.
  replace (y + (x - n))%Z with (x + y - n)%Z in L by lia. replace (B - y - n + 1 + n)%Z with (B - y + 1)%Z in L by lia. rewrite L.
  replace (A - (x - 1))%Z with (A - x + 1)%Z by lia. replace (x - 1 - n)%Z with (x - n - 1)%Z by lia. replace (B - (y - 1) - n)%Z with (B - y - n + 1)%Z by lia. reflexivity.
Qed.
Lemma reflect n x y : (0 <= n)%Z -> St n (A - x) (B - y) = sg (Z.to_nat n) * St n x y.
Proof.
  intro Hn. unfold St. rewrite (SS_rev n (A - x)) by exact Hn. rewrite <- Rmult_assoc, sg_sq, Rmult_1_l. f_equal; lia.
Qed.
Lemma lower n x y : (0 <= n)%Z -> IZR (A + B - n - x - y) * St n x y = IZR (x + 1) * St n (x + 1) y + IZR (y + 1) * St n x (y + 1).
Proof.
  intro Hn. pose proof (raise n (A - x) (B - y) Hn) as L.
  replace (A - x - 1)%Z with (A - (x + 1))%Z in L by lia. replace (B - y - 1)%Z with (B - (y + 1))%Z in L by lia. rewrite !reflect in L by exact Hn.
  replace (A - x + (B - y) - n)%Z with (A + B - n - x - y)%Z in L by lia. replace (A - (A - x) + 1)%Z with (x + 1)%Z in L by lia. replace (B - (B - y) + 1)%Z with (y + 1)%Z in L by lia.
  apply (Rmult_eq_reg_l (sg (Z.to_nat n))); [|unfold sg; destruct (Nat.even _); lra]. lra.
Qed.

Definition H (n n' s : Z) : R := sig (Z.to_nat A) (fun i => let x := Z.of_nat i in w x (s - x) * (St n x (s - x) * St n' x (s - x))).
Lemma w_x p y : (0 <= p < A)%Z -> w (p + 1) y * IZR (A - p) = w p y * IZR (p + 1).
Proof.
  intro Hp. unfold w. rewrite F_succ by lia. replace (A - p)%Z with (A - (p + 1) + 1)%Z by lia. rewrite F_succ by lia. ring.
Qed.
Lemma w_y x p : (0 <= p < B)%Z -> w x (p + 1) * IZR (B - p) = w x p * IZR (p + 1).
Proof.
  intro Hp. unfold w. rewrite F_succ by lia. replace (B - p)%Z with (B - (p + 1) + 1)%Z by lia. rewrite F_succ by lia. ring.
Qed.
Lemma H_step n n' s : (0 <= n)%Z -> (0 <= n')%Z -> IZR (s + 1 - n) * H n n' (s + 1) = IZR (A + B - n' - s) * H n n' s.
Proof.
  intros Hn Hn'. unfold H. rewrite <- !sig_scal. set (N := Z.to_nat A).
  set (P := fun x : Z => w x (s + 1 - x) * (IZR (A - x + 1) * St n (x - 1) (s + 1 - x)) * St n' x (s + 1 - x)).
  set (Q := fun x : Z => w x (s + 1 - x) * (IZR (B - (s - x)) * St n x (s - x)) * St n' x (s + 1 - x)).
  set (P' := fun x : Z => w x (s - x) * IZR (x + 1) * St n x (s - x) * St n' (x + 1) (s - x)).
  set (Q' := fun x : Z => w x (s - x) * IZR (s - x + 1) * St n x (s - x) * St n' x (s - x + 1)).
  transitivity (sig N (fun i => P (Z.of_nat i)) + sig N (fun i => Q (Z.of_nat i))).
  { rewrite <- sig_plus. apply sig_ext. intros i _. set (x := Z.of_nat i). cbn zeta. unfold P, Q. pose proof (raise n x (s + 1 - x) Hn) as L.
    replace (x + (s + 1 - x) - n)%Z with (s + 1 - n)%Z in L by lia. replace (B - (s + 1 - x) + 1)%Z with (B - (s - x))%Z in L by lia. replace (s + 1 - x - 1)%Z with (s - x)%Z in L by lia.
    transitivity (w x (s + 1 - x) * (IZR (s + 1 - n) * St n x (s + 1 - x)) * St n' x (s + 1 - x)); [ring|]. rewrite L. ring. }
  transitivity (sig N (fun i => P' (Z.of_nat i)) + sig N (fun i => Q' (Z.of_nat i))).
  - f_equal.
    + destruct N as [|k] eqn:EN.
      * cbn. unfold P, P'. rewrite (St_zero n (0 - 1)), (St_zero n' (0 + 1)) by lia. ring.
      * rewrite sig_shift. change (sig (S k) (fun i => P' (Z.of_nat i))) with (sig k (fun i => P' (Z.of_nat i)) + P' (Z.of_nat (S k))).
        assert (P0 : P (Z.of_nat 0) = 0) by (unfold P; rewrite (St_zero n (Z.of_nat 0 - 1)) by lia; ring). assert (Pl : P' (Z.of_nat (S k)) = 0) by (unfold P'; rewrite (St_zero n' (Z.of_nat (S k) + 1)) by lia; ring).
        rewrite P0, Pl, Rplus_0_l, Rplus_0_r. apply sig_ext. intros i Hi. rewrite Nat2Z.inj_succ. set (p := Z.of_nat i). unfold P, P'. replace (Z.succ p) with (p + 1)%Z by lia.
        replace (s + 1 - (p + 1))%Z with (s - p)%Z by lia. replace (A - (p + 1) + 1)%Z with (A - p)%Z by lia. replace (p + 1 - 1)%Z with p by lia.
        transitivity (w (p + 1) (s - p) * IZR (A - p) * St n p (s - p) * St n' (p + 1) (s - p)); [ring|]. rewrite w_x by lia. ring.
    + apply sig_ext. intros i Hi. set (x := Z.of_nat i). unfold Q, Q'. replace (s + 1 - x)%Z with (s - x + 1)%Z by lia. set (y := (s - x)%Z).
      destruct (Z_lt_dec y 0); [rewrite (St_zero n x y) by lia; ring|]. destruct (Z_le_dec B y); [rewrite (St_zero n' x (y + 1)) by lia; ring|].
      transitivity (w x (y + 1) * IZR (B - y) * St n x y * St n' x (y + 1)); [ring|]. rewrite w_y by lia. ring.
  - rewrite <- sig_plus. apply sig_ext. intros i _. set (x := Z.of_nat i). cbn zeta. unfold P', Q'. pose proof (lower n' x (s - x) Hn') as L. replace (A + B - n' - x - (s - x))%Z with (A + B - n' - s)%Z in L by lia.
    transitivity (w x (s - x) * St n x (s - x) * (IZR (A + B - n' - s) * St n' x (s - x))); [rewrite L; ring|ring].
Qed.

Lemma H_out n n' s : (A + B - n < s)%Z -> H n n' s = 0.
Proof. intro Hs. apply sig_zero. intros i _. cbn zeta. rewrite (St_zero n) by lia. ring. Qed.
Lemma H_orth n n' s : (0 <= n' < n)%Z -> H n n' s = 0.
Proof.
  intro Hn. destruct (Z_lt_dec (A + B - n) s) as [L | L]; [now apply H_out|].
  assert (G : forall k : nat, H n n' (A + B - n - Z.of_nat k) = 0).
  { induction k as [|k IH].
    - pose proof (H_step n n' (A + B - n) ltac:(lia) ltac:(lia)) as E. rewrite H_out in E by lia. replace (A + B - n - Z.of_nat 0)%Z with (A + B - n)%Z by lia.
      rewrite Rmult_0_r in E. symmetry in E. apply Rmult_integral in E as [E | E]; [|exact E]. apply eq_IZR in E. lia.
    - pose proof (H_step n n' (A + B - n - Z.of_nat (S k)) ltac:(lia) ltac:(lia)) as E. replace (A + B - n - Z.of_nat (S k) + 1)%Z with (A + B - n - Z.of_nat k)%Z in E by lia. rewrite IH, Rmult_0_r in E.
      symmetry in E. apply Rmult_integral in E as [E | E]; [|exact E]. apply eq_IZR in E. lia. }
  specialize (G (Z.to_nat (A + B - n - s))). replace (A + B - n - Z.of_nat (Z.to_nat (A + B - n - s)))%Z with s in G by lia. exact G.
Qed.
Lemma H_sym n n' s : H n n' s = H n' n s.
Proof. apply sig_ext. intros i _. cbn zeta. ring. Qed.
Lemma H_same n s : (0 <= n)%Z -> (n <= s <= A + B - n)%Z -> F (s - n) * F (A + B - n - s) * H n n s = F (A + B - n - n) * H n n (A + B - n).
Proof.
  intros Hn Hs. assert (G : forall k : nat, (n <= A + B - n - Z.of_nat k)%Z -> F (A + B - n - Z.of_nat k - n) * F (Z.of_nat k) * H n n (A + B - n - Z.of_nat k) = F (A + B - n - n) * H n n (A + B - n)).
  { induction k as [|k IH]; intro Hk.
    - replace (A + B - n - Z.of_nat 0)%Z with (A + B - n)%Z by lia. replace (F (Z.of_nat 0)) with 1 by reflexivity. ring.
    - rewrite <- IH by lia. pose proof (H_step n n (A + B - n - Z.of_nat (S k)) Hn Hn) as E. replace (A + B - n - Z.of_nat (S k) + 1)%Z with (A + B - n - Z.of_nat k)%Z in E by lia.
      replace (A + B - n - (A + B - n - Z.of_nat (S k)))%Z with (Z.of_nat k + 1)%Z in E by lia. replace (A + B - n - Z.of_nat k - n)%Z with (A + B - n - Z.of_nat (S k) - n + 1)%Z in * by lia.
      replace (A + B - n - Z.of_nat (S k) - n + 1)%Z with (A + B - n - Z.of_nat (S k) - n + 1)%Z in E by lia.
      replace (Z.of_nat (S k)) with (Z.of_nat k + 1)%Z at 2 by lia. rewrite !F_succ by lia.
      transitivity (F (A + B - n - Z.of_nat (S k) - n) * F (Z.of_nat k) * (IZR (Z.of_nat k + 1) * H n n (A + B - n - Z.of_nat (S k)))); [ring|]. rewrite <- E. ring. }
  specialize (G (Z.to_nat (A + B - n - s))). replace (Z.of_nat (Z.to_nat (A + B - n - s))) with (A + B - n - s)%Z in G by lia. replace (A + B - n - (A + B - n - s))%Z with s in G by lia. apply G. lia.
Qed.
End states.

(** ** Vandermonde *)
Fixpoint g (p n : nat) : R := match p with O => 1 | S q => sig n (g q) end.
Lemma g_step p n : g (S p) (S n) = g (S p) n + g p (S n).
Proof. reflexivity. Qed.
Lemma g_0 p : g p 0 = 1.
Proof. induction p; [reflexivity|]. exact IHp. Qed.
Lemma g_fact p n : g p n * (INR (fact p) * INR (fact n)) = INR (fact (p + n)).
Proof.
  revert n; induction p as [|p IHp]; intro n; [cbn [g fact]; change (0 + n)%nat with n; cbn [INR]; ring|].
  induction n as [|n IHn]; [rewrite g_0, Nat.add_0_r; cbn [fact INR]; ring|].
  rewrite g_step, Rmult_plus_distr_r. rewrite (fact_simpl n) at 1. rewrite mult_INR. rewrite (fact_simpl p) at 2. rewrite mult_INR.
  transitivity (INR (S n) * (g (S p) n * (INR (fact (S p)) * INR (fact n))) + INR (S p) * (g p (S n) * (INR (fact p) * INR (fact (S n))))); [ring|]. rewrite IHn, IHp.
  replace (S p + S n)%nat with (S (p + S n)) by lia. rewrite fact_simpl, mult_INR. replace (S p + n)%nat with (p + S n)%nat by lia. replace (S (p + S n)) with (S n + S p)%nat by lia. rewrite plus_INR. ring.
Qed.
Lemma g_conv p q n : sig n (fun k => g p (n - k) * g q k) = g (p + q + 1) n.
Proof.
  revert n; induction p as [|p IHp]; intro n.
  - cbn [g]. replace (0 + q + 1)%nat with (S q) by lia. cbn [g]. apply sig_ext. intros. ring.
  - induction n as [|n IHn]; [cbn [sig Nat.sub]; rewrite !g_0; ring|].
    replace (S p + q + 1)%nat with (S (p + q + 1)) in * by lia. rewrite g_step, <- IHn, <- IHp. cbn [sig]. rewrite Nat.sub_diag, !g_0.
    assert (E : sig n (fun k => g (S p) (S n - k) * g q k) = sig n (fun k => g (S p) (n - k) * g q k) + sig n (fun k => g p (S n - k) * g q k)); [|rewrite E; ring].
    rewrite <- sig_plus. apply sig_ext. intros k Hk. replace (S n - k)%nat with (S (n - k)) by lia. rewrite g_step. ring.
Qed.
Lemma vandermonde p q n : sig n (fun k => INR (fact (p + (n - k))) * INR (fact (q + k)) / (INR (fact k) * INR (fact (n - k)))) =
  INR (fact p) * INR (fact q) * INR (fact (p + q + 1 + n)) / (INR (fact n) * INR (fact (p + q + 1))).
Proof.
  transitivity (sig n (fun k => INR (fact p) * INR (fact q) * (g p (n - k) * g q k))).
  - apply sig_ext. intros k _. rewrite <- !g_fact. field. split; apply INR_fact_neq_0.
  - rewrite sig_scal, g_conv, <- (g_fact (p + q + 1) n). field. split; apply INR_fact_neq_0.
Qed.

Lemma H_top A B n : (0 <= n <= A)%Z -> (n <= B)%Z -> H A B n n (A + B - n) =
  F (A + B - n + 1) / (F n * F (A + B - n - n + 1) * F (A - n) * F (B - n)).
Proof.
  intros Hn HB. unfold H. set (s := (A + B - n)%Z).
  assert (S1 : forall x, (A - n <= x <= A)%Z -> St A B n x (s - x) = sg (Z.to_nat (A - x)) * (rf (A - x) * rf (n - A + x) * rf (B - n) * rf (A - n))).
  { intros x Hx. unfold St, SS. rewrite (sig_one _ _ (Z.to_nat (A - x))); [|lia|].
    - unfold T. replace (Z.of_nat (Z.to_nat (A - x))) with (A - x)%Z by lia. replace (A - x - (A - x))%Z with 0%Z by lia. replace (B - (s - x) - n + (A - x))%Z with 0%Z by (unfold s; lia).
      replace (s - x - (A - x))%Z with (B - n)%Z by (unfold s; lia). replace (x - n + (A - x))%Z with (A - n)%Z by lia. replace (n - (A - x))%Z with (n - A + x)%Z by lia.
      assert (R0 : rf 0 = 1) by (rewrite rf_pos by lia; change (F 0) with 1; field). rewrite R0. ring.
    - intros k Hk Nk. apply T_zero. unfold s. lia. }
  assert (S0 : forall x, (0 <= x < A - n)%Z -> St A B n x (s - x) = 0) by (intros x Hx; apply St_zero; unfold s; lia).
  rewrite sig_rev. replace (Z.to_nat A) with (Z.to_nat n + (Z.to_nat A - Z.to_nat n))%nat at 1 by lia. rewrite sig_more.
  - transitivity (/ F (A - n) * / F (A - n) * (/ F (B - n) * / F (B - n)) * sig (Z.to_nat n) (fun k => INR (fact (Z.to_nat (A - n) + (Z.to_nat n - k))) * INR (fact (Z.to_nat (B - n) + k)) / (INR (fact k) * INR (fact (Z.to_nat n - k))))).
    + rewrite <- sig_scal. apply sig_ext. intros k Hk. cbn zeta. set (x := Z.of_nat (Z.to_nat A - k)). assert (Ex : x = (A - Z.of_nat k)%Z) by (unfold x; lia).
      rewrite S1 by lia. pose proof (sg_sq (Z.to_nat (A - x))) as Q.
      transitivity ((sg (Z.to_nat (A - x)) * sg (Z.to_nat (A - x))) * (w A B x (s - x) * ((rf (A - x) * rf (n - A + x) * rf (B - n) * rf (A - n)) * (rf (A - x) * rf (n - A + x) * rf (B - n) * rf (A - n))))); [ring|]. rewrite Q.
      unfold w. rewrite !rf_pos by lia. rewrite Ex. replace (A - (A - Z.of_nat k))%Z with (Z.of_nat k) by lia. replace (n - A + (A - Z.of_nat k))%Z with (n - Z.of_nat k)%Z by lia.
      replace (B - (s - (A - Z.of_nat k)))%Z with (n - Z.of_nat k)%Z by (unfold s; lia).
      unfold F. replace (Z.to_nat (A - Z.of_nat k)) with (Z.to_nat (A - n) + (Z.to_nat n - k))%nat by lia. replace (Z.to_nat (s - (A - Z.of_nat k))) with (Z.to_nat (B - n) + k)%nat by (unfold s; lia).
      replace (Z.to_nat (n - Z.of_nat k)) with (Z.to_nat n - k)%nat by lia. rewrite Nat2Z.id. field. repeat split; apply INR_fact_neq_0.
    + rewrite vandermonde. unfold F, s. replace (Z.to_nat (A + B - n + 1)) with (Z.to_nat (A - n) + Z.to_nat (B - n) + 1 + Z.to_nat n)%nat by lia. replace (Z.to_nat (A + B - n - n + 1)) with (Z.to_nat (A - n) + Z.to_nat (B - n) + 1)%nat by lia.
      field. repeat split; apply INR_fact_neq_0.
  - intros i Hi. cbn zeta. rewrite S0 by lia. ring.
Qed.
