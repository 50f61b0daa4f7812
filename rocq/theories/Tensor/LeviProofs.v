From Coq Require Import Permutation.
From Verif.Common Require Import Prelude.
From Verif.Tensor Require Import Model Spec Proofs Levi.
Local Open Scope nat_scope.

Fixpoint row (x : nat) (l : list nat) : Z := match l with [] => 1%Z | y :: r => ((Z.of_nat x - Z.of_nat y) * row x r)%Z end.
Fixpoint vander (l : list nat) : Z := match l with [] => 1%Z | x :: r => (row x r * vander r)%Z end.

Lemma row_perm x l l' : Permutation l l' -> row x l = row x l'.
Proof. induction 1; cbn [row]; try ring; try congruence. Qed.
Lemma row_app x a b : row x (a ++ b) = (row x a * row x b)%Z.
Proof. induction a as [|y a IH]; cbn [row app]; [ring|rewrite IH; ring]. Qed.
Lemma vander_adjacent a x y c : vander (a ++ x :: y :: c) = (- vander (a ++ y :: x :: c))%Z.
Proof.
  induction a as [|z a IH]; cbn [app vander row]; [ring|].
  rewrite IH. rewrite (row_perm z (a ++ x :: y :: c) (a ++ y :: x :: c)); [ring|].
  apply Permutation_app_head. constructor.
Qed.
Lemma vander_move a x b c : vander (a ++ x :: b ++ c) = ((if Nat.even (List.length b) then 1 else -1) * vander (a ++ b ++ x :: c))%Z.
Proof.
  revert a. induction b as [|y b IH]; intro a; cbn [app List.length].
  - change (Nat.even 0) with true. cbn iota. ring.
  - rewrite vander_adjacent. specialize (IH (a ++ [y])). rewrite <- !app_assoc in IH. cbn [app] in IH. rewrite IH.
    rewrite Nat.even_succ, <- Nat.negb_even. destruct (Nat.even (List.length b)); cbn [negb]; ring.
Qed.
Lemma vander_swap a x b y c : vander (a ++ x :: b ++ y :: c) = (- vander (a ++ y :: b ++ x :: c))%Z.
Proof.
  rewrite (vander_move a x b (y :: c)).
  assert (E : vander (a ++ b ++ x :: y :: c) = (- vander (a ++ b ++ y :: x :: c))%Z).
  { rewrite !app_assoc. apply vander_adjacent. }
  rewrite E. rewrite (vander_move a y b (x :: c)).
  destruct (Nat.even (List.length b)); ring.
Qed.
Lemma vander_abs l l' : Permutation l l' -> Z.abs (vander l) = Z.abs (vander l').
Proof.
  induction 1 as [|x l l' H IH|x y l|l l' l'' H1 IH1 H2 IH2]; cbn [vander].
  - reflexivity.
  - rewrite (row_perm x l l' H), !Z.abs_mul, IH. reflexivity.
  - cbn [row]. rewrite !Z.abs_mul. rewrite <- (Z.abs_opp (Z.of_nat y - Z.of_nat x)).
    replace (- (Z.of_nat y - Z.of_nat x))%Z with (Z.of_nat x - Z.of_nat y)%Z by ring. ring.
  - congruence.
Qed.
Lemma row_zero x l : row x l = 0%Z <-> In x l.
Proof.
  induction l as [|y l IH]; cbn [row In]; [split; [discriminate|intros []]|]. rewrite Z.mul_eq_0, IH. intuition lia.
Qed.
Lemma vander_zero l : vander l = 0%Z <-> ~ NoDup l.
Proof.
  induction l as [|x l IH]; cbn [vander].
  - split; [discriminate|]. intro H. exfalso. apply H. constructor.
  - rewrite Z.mul_eq_0, row_zero, IH. split.
    + intros [H|H] N; inversion N; contradiction.
    + intro H. destruct (in_dec Nat.eq_dec x l) as [I|I]; [now left|right]. intro N. apply H. now constructor.
Qed.

(** ** The checked product *)
Definition prodz (l : list Z) : Z := fold_right Z.mul 1%Z l.
Lemma factors_vander l : prodz (factors l) = vander l.
Proof.
  assert (A : forall a b, prodz (a ++ b) = (prodz a * prodz b)%Z).
  { induction a as [|x a IH]; intro b; cbn [app]; [unfold prodz at 2; cbn [fold_right]; ring|].
    change (x * prodz (a ++ b) = x * prodz a * prodz b)%Z. rewrite IH. ring. }
  induction l as [|x l IH]; [reflexivity|]. cbn [factors vander]. rewrite A, IH. f_equal. clear.
  induction l as [|y l IH]; [reflexivity|]. cbn [map row]. rewrite <- IH. reflexivity.
Qed.
Lemma product_of_ok l : forall acc, (acc * prodz l <> 0)%Z -> (Z.abs (acc * prodz l) <= 2147483647)%Z -> product_of l acc = Ok (acc * prodz l)%Z.
Proof.
  induction l as [|f l IH]; intros acc N B; cbn [product_of]; [unfold prodz; cbn [fold_right]; f_equal; ring|].
  change (prodz (f :: l)) with (f * prodz l)%Z in *. rewrite Z.mul_assoc in *.
  unfold int_mul. assert (P : (prodz l <> 0)%Z) by (intro X; rewrite X, Z.mul_0_r in N; congruence).
  assert (Le : (Z.abs (acc * f) <= Z.abs (acc * f * prodz l))%Z) by (rewrite (Z.abs_mul (acc * f)); nia).
  destruct (_ && _)%bool eqn:E.
  - cbn [bind]. now apply IH.
  - exfalso. apply andb_false_iff in E. rewrite !Z.leb_gt in E. lia.
Qed.
Definition fits (n : nat) : Prop := (Z.abs (vander (seq 0 n)) <= 2147483647)%Z.
Lemma permutation_sign_ok n l : 0 < n -> fits n -> Permutation (seq 0 n) l -> permutation_sign l = Ok (vander l).
Proof.
  intros H F P. destruct l as [|x l]; [apply Permutation_sym, Permutation_nil in P; destruct n; [lia|discriminate]|].
  unfold permutation_sign. rewrite product_of_ok; rewrite factors_vander, Z.mul_1_l.
  - reflexivity.
  - rewrite vander_zero. intro X. apply X. apply (Permutation_NoDup P). apply seq_NoDup.
  - rewrite <- (vander_abs _ _ P). exact F.
Qed.

(** ** Permutations *)
Lemma remove_length_in x l : NoDup l -> In x l -> List.length (remove Nat.eq_dec x l) = List.length l - 1 /\ Permutation l (x :: remove Nat.eq_dec x l).
Proof.
  intros N H. apply in_split in H as (a & b & ->).
  assert (X : ~ In x (a ++ b)) by (now apply NoDup_remove_2 in N).
  rewrite remove_app. cbn [remove]. destruct (Nat.eq_dec x x); [|congruence].
  rewrite !notin_remove by (intro Y; apply X; apply in_app_iff; auto).
  rewrite !app_length. cbn [List.length]. split; [lia|]. symmetry. apply Permutation_middle.
Qed.
Lemma nodup_remove x l : NoDup l -> NoDup (remove Nat.eq_dec x l).
Proof.
  induction 1 as [|y l Hy N IH]; cbn [remove]; [constructor|]. destruct (Nat.eq_dec x y); [assumption|]. constructor; [|assumption].
  intro H. apply in_remove in H as [H _]. contradiction.
Qed.
Lemma perms_iff : forall n l, NoDup l -> List.length l = n -> forall p, In p (perms n l) <-> Permutation l p.
Proof.
  induction n as [|n IH]; intros l N L p; cbn [perms].
  - apply length_zero_iff_nil in L. subst l. split.
    + intros [<-|[]]. constructor.
    + intro H. apply Permutation_nil in H. subst p. now left.
  - rewrite in_flat_map. split.
    + intros (x & Hx & Hp). apply in_map_iff in Hp as (q & <- & Hq). destruct (remove_length_in x l N Hx) as [L' P].
      apply IH in Hq; [|now apply nodup_remove|lia]. rewrite P. now constructor.
    + intro P. destruct p as [|x p]; [symmetry in P; apply Permutation_nil in P; subst l; discriminate L|].
      assert (Hx : In x l) by (apply (Permutation_in x (Permutation_sym P)); now left).
      exists x. split; [assumption|]. apply in_map_iff. exists p. split; [reflexivity|].
      destruct (remove_length_in x l N Hx) as [L' P']. apply IH; [now apply nodup_remove|lia|].
      apply (Permutation_cons_inv (a := x)). now rewrite <- P'.
Qed.
Lemma in_range_perm n co : in_range co (repeat n n) -> (Permutation (seq 0 n) co <-> NoDup co).
Proof.
  intro R. split.
  - intro P. apply (Permutation_NoDup P). apply seq_NoDup.
  - intro N. symmetry. apply NoDup_Permutation_bis; [assumption| |].
    + rewrite seq_length. apply in_range_length in R. rewrite repeat_length in R. lia.
    + intros x Hx. apply in_seq. split; [lia|]. clear N.
      assert (G : forall m, in_range co (repeat n m) -> x < 0 + n).
      { clear R. induction co as [|c co IH]; intros m R; [destruct Hx|]. destruct m as [|m]; cbn [repeat] in R; inversion R; subst.
        destruct Hx as [<-|Hx]; [lia|]. eapply IH; eassumption. }
      exact (G n R).
Qed.
Lemma perm_in_range n co : Permutation (seq 0 n) co -> in_range co (repeat n n).
Proof.
  intro P. assert (L : List.length co = n) by (apply Permutation_length in P; rewrite seq_length in P; lia).
  assert (B : Forall (fun c => c < n) co).
  { apply Forall_forall. intros x Hx. apply Permutation_sym in P. apply (Permutation_in x P) in Hx. apply in_seq in Hx. lia. }
  rewrite <- L at 2. clear L P. induction B; cbn [List.length repeat]; constructor; assumption.
Qed.
Lemma prodn_repeat_pos n m : 0 < n -> prodn (repeat n m) <> 0.
Proof. intro H. induction m as [|m IH]; [discriminate|]. change (n * prodn (repeat n m) <> 0). nia. Qed.
Lemma ci_inj co co' dim : in_range co dim -> in_range co' dim -> ci_ co dim = ci_ co' dim -> co = co'.
Proof. intros R R' E. pose proof (i2c_ci _ _ R) as A. rewrite E, (i2c_ci _ _ R') in A. congruence. Qed.

Section Loop.
  Variable n : nat.
  Hypothesis Hn : 0 < n.
  Hypothesis Fits : fits n.
  Let dim := repeat n n.
  Let p0 := vander (seq 0 n).
  Definition eps (co : list nat) : Z := (Z.sgn (vander co) * Z.sgn p0)%Z.

  Lemma p0_nonzero : p0 <> 0%Z.
  Proof. unfold p0. rewrite vander_zero. intro H. apply H. apply seq_NoDup. Qed.
  Lemma quot_eps co : Permutation (seq 0 n) co -> Z.quot (vander co) p0 = eps co.
  Proof.
    intro P. pose proof (vander_abs _ _ P) as A. fold p0 in A. pose proof p0_nonzero as Nz. unfold eps.
    assert (C : vander co = p0 \/ vander co = (- p0)%Z) by lia. destruct C as [-> | ->].
    - rewrite Z.quot_same by assumption. destruct p0; try reflexivity. congruence.
    - rewrite Z.quot_opp_l, Z.quot_same by assumption. destruct p0; try reflexivity. congruence.
  Qed.

  Lemma loop_ok : forall todo t, (forall co, In co todo -> Permutation (seq 0 n) co) -> dims t = dim ->
    sym t = seq 0 (prodn dim) -> List.length (elems t) = prodn dim ->
    exists t', levi_loop p0 todo t = Ok t' /\ dims t' = dim /\ sym t' = seq 0 (prodn dim) /\ List.length (elems t') = prodn dim /\
      forall co, in_range co dim -> nth_error (elems t') (ci_ co dim) =
        if in_dec (list_eq_dec Nat.eq_dec) co todo then Some (eps co) else nth_error (elems t) (ci_ co dim).
  Proof.
    induction todo as [|co todo IH]; intros t Hp Hd Hs Hl; cbn [levi_loop].
    - exists t. repeat split; auto.
    - assert (P : Permutation (seq 0 n) co) by (apply Hp; now left). pose proof (perm_in_range n co P) as R. fold dim in R.
      pose proof (ci_lt _ _ R) as Lt.
      rewrite Hd, (c2i_ok _ _ R). cbn [bind]. rewrite Hs.
      assert (Q : forall k, k < prodn dim -> nth_error (seq 0 (prodn dim)) k = Some k).
      { intros k Hk. rewrite (nth_error_nth' _ 0) by (rewrite seq_length; exact Hk). now rewrite seq_nth by exact Hk. }
      rewrite (Q _ Lt). cbn [of_opt bind]. rewrite (permutation_sign_ok n co Hn Fits P). cbn [bind].
      destruct (Z.eqb_spec p0 0) as [E|_]; [exfalso; now apply p0_nonzero|].
      unfold put_at. rewrite Hs, (Q _ Lt). cbn [of_opt bind].
      destruct (set_nth_ok (elems t) (ci_ co dim) (Z.quot (vander co) p0)) as (l' & El & Ll & Kl); [rewrite Hl; exact Lt|].
      rewrite El. cbn [bind].
      destruct (IH (Tensor (dims t) l' (seq 0 (prodn dim)))) as (t' & E' & D' & S' & L' & K').
      + intros c Hc. apply Hp. now right.
      + exact Hd.
      + reflexivity.
      + cbn [elems]. congruence.
      + exists t'. rewrite E'. repeat split; auto. intros c Rc. rewrite (K' c Rc). cbn [elems]. rewrite Kl.
        destruct (in_dec (list_eq_dec Nat.eq_dec) c todo) as [I|I], (in_dec (list_eq_dec Nat.eq_dec) c (co :: todo)) as [J|J]; try reflexivity.
        * exfalso. apply J. now right.
        * destruct J as [J|J]; [|contradiction]. subst c. rewrite Nat.eqb_refl. f_equal. now apply quot_eps.
        * destruct (ci_ c dim =? ci_ co dim) eqn:E; [|reflexivity]. apply Nat.eqb_eq in E. exfalso. apply J. left.
          now apply (ci_inj co c dim).
  Qed.

  Theorem levi_ok : exists t, levi_civita n = Ok t /\ dims t = dim /\ forall co, in_range co dim -> at_co t co = Ok (eps co).
  Proof.
    unfold levi_civita. rewrite (permutation_sign_ok n (seq 0 n) Hn Fits (Permutation_refl _)). cbn [bind]. fold p0 dim.
    assert (Pos : Forall (fun d => 0 < d) dim) by (apply Forall_forall; intros d Hd; apply repeat_spec in Hd; lia).
    destruct (loop_ok (perms n (seq 0 n)) (zeros Z 0%Z dim)) as (t & E & D & S & L & K).
    - intros co H. apply perms_iff in H; [assumption|apply seq_NoDup|apply seq_length].
    - reflexivity.
    - reflexivity.
    - cbn [zeros elems]. rewrite repeat_length. now apply n_elements_pos.
    - exists t. rewrite E. split; [reflexivity|]. split; [assumption|]. intros co R. pose proof (ci_lt _ _ R) as Lt.
      unfold at_co. rewrite D, (c2i_ok _ _ R). cbn [bind]. unfold at_. rewrite S.
      rewrite (nth_error_nth' _ 0) by (rewrite seq_length; exact Lt). rewrite seq_nth by exact Lt. cbn [Nat.add of_opt bind].
      rewrite (K co R). destruct (in_dec (list_eq_dec Nat.eq_dec) co (perms n (seq 0 n))) as [I|I]; [reflexivity|].
      cbn [zeros elems]. rewrite (nth_error_nth' _ 0%Z) by (rewrite repeat_length, n_elements_pos by exact Pos; exact Lt).
      rewrite nth_repeat. cbn [of_opt]. f_equal. unfold eps. assert (V : vander co = 0%Z).
      { apply vander_zero. intro N. apply I. apply perms_iff; [apply seq_NoDup|apply seq_length|]. now apply (in_range_perm n co R). }
      now rewrite V.
  Qed.
  Lemma eps_dup co : ~ NoDup co -> eps co = 0%Z.
  Proof. intro H. apply vander_zero in H. unfold eps. now rewrite H. Qed.
  Lemma eps_swap a x b y c : eps (a ++ x :: b ++ y :: c) = (- eps (a ++ y :: b ++ x :: c))%Z.
  Proof. unfold eps. rewrite vander_swap, Z.sgn_opp. ring. Qed.
  Lemma eps_id : eps (seq 0 n) = 1%Z.
  Proof. unfold eps. fold p0. pose proof p0_nonzero. destruct p0; try reflexivity. congruence. Qed.
End Loop.
