From Coq Require Import Reals Lra.
From Verif.Errors Require Import Model Spec Sums Merge.

(** * The store *)
Lemma put_put s : forall a v w, put (put s a v) a w = put s a w.
Proof. induction s as [|x s IH]; intros [|a] v w; cbn; [reflexivity..|]. now rewrite IH. Qed.
Lemma put_same s : forall a v, nth_error s a = Some v -> put s a v = s.
Proof. induction s as [|x s IH]; intros [|a] v H; cbn in *; [discriminate..|congruence|]. now rewrite IH. Qed.
Lemma put_length s : forall a v, List.length (put s a v) = List.length s.
Proof. induction s as [|x s IH]; intros [|a] v; cbn; auto. Qed.
Lemma put_other s : forall a v b, b <> a -> nth_error (put s a v) b = nth_error s b.
Proof. induction s as [|x s IH]; intros [|a] v [|b] N; cbn; try congruence. apply IH. congruence. Qed.

Section Run.
  Variable p : propagator.
  Definition D (f : store -> num) (s : store) (i : nat) : num :=
    match nth_error (params p) i with
    | None => None
    | Some q => match nth_error s (addr q) with
      | None => None
      | Some v => let e := sqrt_ (Some (entry (cov p) i i)) in div_ (sub_ (f (put s (addr q) (add_ v e))) (f (put s (addr q) (sub_ v e)))) (mul_ (Some 2%R) e)
      end
    end.
  Variable s : store.
  Hypothesis V : valid p s.
  Definition around (s' : store) : Prop := s' = s \/ near p s s'.
  Lemma derivative_ok f i : i < size p -> exists log, derivative p f i s = Ok (D f s i, s, log) /\ Forall around log.
  Proof.
    intro L. unfold derivative, D. destruct (nth_error (params p) i) as [q|] eqn:Q; [|apply nth_error_None in Q; unfold size in L; lia].
    assert (I : In q (params p)) by (eapply nth_error_In; eassumption). pose proof (V q I) as La.
    destruct (nth_error s (addr q)) as [v|] eqn:E; [|apply nth_error_None in E; lia]. rewrite !put_put. rewrite (put_same s (addr q) v E). eexists. split; [reflexivity|].
    assert (N : forall w, around (put s (addr q) w)) by (intro w; right; exists q; split; [exact I|]; split; [apply put_length|]; intros a Na; now apply put_other).
    auto.
  Qed.
  Lemma last_cons (d : store) l : last l d = d -> last (d :: l) d = d.
  Proof. destruct l; [reflexivity|]. intro H. exact H. Qed.
  Lemma last_mid (l : list store) x r d : last (l ++ x :: r) d = last (x :: r) d.
  Proof. induction l as [|a l IH]; [reflexivity|]. cbn [app]. destruct (l ++ x :: r) eqn:E; [now destruct l|]. rewrite <- IH. reflexivity. Qed.
  Lemma derivatives_ok again f is : (forall i, In i is -> i < size p) -> exists log, derivatives p again f is s = Ok (map (D f s) is, s, log) /\ Forall around log /\ (again = true -> last log s = s).
  Proof.
    induction is as [|i r IH]; intro H; [exists []; cbn; repeat split; auto; congruence|]. cbn [derivatives]. destruct (derivative_ok f i (H i (or_introl eq_refl))) as (log & -> & F). cbn [bind].
    destruct IH as (log2 & -> & F2 & L2); [intros j J; apply H; now right|]. cbn [bind]. eexists. split; [reflexivity|].
    assert (A : Forall around (if again then [s] else [])) by (destruct again; [constructor; [now left|constructor]|constructor]).
    split; [apply Forall_app; split; [exact F|]; apply Forall_app; now split|]. intros ->. cbn [app]. rewrite last_mid. now apply last_cons, L2.
  Qed.
  Hypothesis W : wf p.
  Lemma seq_lt N i : In i (seq 0 N) -> i < N.
  Proof. rewrite in_seq. lia. Qed.
  Lemma nth_map_seq {A} (g : nat -> A) N i d : i < N -> nth i (map g (seq 0 N)) d = g i.
  Proof. intro L. rewrite (nth_indep _ d (g 0)) by now rewrite map_length, seq_length. rewrite map_nth, seq_nth by exact L. reflexivity. Qed.
  Lemma quadratic_ext n e e' : (forall i, i < n -> e i = e' i) -> quadratic p n e e = quadratic p n e' e'.
  Proof. intro H. unfold quadratic. apply sum_ext_. intros i L. rewrite H by exact L. f_equal. apply sum_ext_. intros j J. now rewrite H. Qed.
  Lemma getError_ok f : exists log, getError p f s = Ok (sqrt_ (quadratic p (size p) (D f s) (D f s)), s, log) /\ Forall around log /\ last log s = s.
  Proof.
    unfold getError. rewrite W. fold (size p). destruct (derivatives_ok true f (seq 0 (size p)) (seq_lt _)) as (log & -> & F & L). cbn [bind]. exists log. split; [|split; [exact F|now apply L]].
    f_equal. f_equal. f_equal. f_equal. apply quadratic_ext. intros i Li. now apply nth_map_seq.
  Qed.
  Lemma vderivative_ok f RANK i : i < size p -> exists log, vderivative p f RANK i s = Ok (map (fun j => D (fun s => f s j) s i) (seq 0 RANK), s, log) /\ Forall around log.
  Proof.
    intro L. unfold vderivative, D. destruct (nth_error (params p) i) as [q|] eqn:Q; [|apply nth_error_None in Q; unfold size in L; lia].
    assert (I : In q (params p)) by (eapply nth_error_In; eassumption). pose proof (V q I) as La.
    destruct (nth_error s (addr q)) as [v|] eqn:E; [|apply nth_error_None in E; lia]. rewrite !put_put. rewrite (put_same s (addr q) v E). eexists. split; [reflexivity|].
    assert (N : forall w, around (put s (addr q) w)) by (intro w; right; exists q; split; [exact I|]; split; [apply put_length|]; intros a Na; now apply put_other).
    auto.
  Qed.
  Lemma vderivatives_ok f RANK is : (forall i, In i is -> i < size p) -> exists log, vderivatives p f RANK is s = Ok (map (fun i => map (fun j => D (fun s => f s j) s i) (seq 0 RANK)) is, s, log) /\ Forall around log.
  Proof.
    induction is as [|i r IH]; intro H; [exists []; cbn; auto|]. cbn [vderivatives]. destruct (vderivative_ok f RANK i (H i (or_introl eq_refl))) as (log & -> & F). cbn [bind].
    destruct IH as (log2 & -> & F2); [intros j J; apply H; now right|]. cbn [bind]. eexists. split; [reflexivity|]. apply Forall_app. now split.
  Qed.
  Lemma getVectorError_ok f RANK : exists log, getVectorError p f RANK s = Ok (map (fun j => sqrt_ (quadratic p (size p) (D (fun s => f s j) s) (D (fun s => f s j) s))) (seq 0 RANK), s, log) /\ Forall around log /\ last log [] = s.
  Proof.
    unfold getVectorError. rewrite W. fold (size p). destruct (vderivatives_ok f RANK (seq 0 (size p)) (seq_lt _)) as (log & -> & F). cbn [bind]. eexists. split.
    - f_equal. f_equal. f_equal. apply map_ext_in. intros j J. apply in_seq in J. f_equal. apply quadratic_ext. intros i Li. rewrite (nth_map_seq _ _ _ _ Li). apply (nth_map_seq (fun j => D (fun s => f s j) s i)). lia.
    - split; [apply Forall_app; split; [exact F|]; constructor; [now left|constructor]|apply last_last].
  Qed.
  Lemma rows_of_ok fs : exists log, rows_of p fs s = Ok (map (fun f => map (D f s) (seq 0 (size p))) fs, s, log) /\ Forall around log.
  Proof.
    induction fs as [|f r IH]; [exists []; cbn; auto|]. cbn [rows_of]. destruct (derivatives_ok false f (seq 0 (size p)) (seq_lt _)) as (log & -> & F & _). cbn [bind].
    destruct IH as (log2 & -> & F2). cbn [bind]. eexists. split; [reflexivity|]. apply Forall_app. now split.
  Qed.
  Definition no_function : store -> num := fun _ => None.
  Definition E (fs : list (store -> num)) (i j : nat) : num :=
    sum_ (size p) (fun k => sum_ (size p) (fun l => mul_ (mul_ (D (nth i fs no_function) s k) (Some (entry (cov p) k l))) (D (nth j fs no_function) s l))).
  Lemma covariance_ok fs : exists C log, covarianceMatrix p fs s = Ok (C, s, log) /\ Forall around log /\ forall i j, i < List.length fs -> j < List.length fs -> C i j = E fs i j.
  Proof.
    unfold covarianceMatrix. rewrite W. fold (size p). rewrite Nat.leb_refl. destruct (rows_of_ok fs) as (log & -> & F). cbn [bind]. do 2 eexists. split; [reflexivity|]. split; [exact F|].
    intros i j Li Lj. unfold entries, E. apply sum_ext_. intros k Lk. apply sum_ext_. intros l Ll.
    assert (X : forall i k, i < List.length fs -> k < size p -> nth k (nth i (map (fun f => map (D f s) (seq 0 (size p))) fs) []) None = D (nth i fs no_function) s k).
    { intros a b La Lb. rewrite (nth_indep _ [] ((fun f => map (D f s) (seq 0 (size p))) no_function)) by now rewrite map_length. rewrite (map_nth (fun f => map (D f s) (seq 0 (size p)))). now apply nth_map_seq. }
    now rewrite !X.
  Qed.

  (** * Values *)
  Lemma quadratic_some n e x : (forall i, i < n -> e i = Some (x i)) -> quadratic p n e e = Some (form n (entry (cov p)) x x).
  Proof.
    intro H. unfold quadratic, form. apply sum_some. intros i L. rewrite H by exact L. rewrite (sum_some n _ (fun j => entry (cov p) i j * x j)%R).
    - cbn [mul_ lift2]. unfold mul_, lift2. f_equal. rewrite <- over_scale. apply over_ext. intros; ring.
    - intros j J. now rewrite H.
  Qed.
  Lemma quadratic_none n e i : i < n -> e i = None -> quadratic p n e e = None.
  Proof. intros L H. unfold quadratic. apply (sum_none n _ i L). now rewrite H. Qed.
  Lemma all_or_none n (e : nat -> num) : (exists x, forall i, i < n -> e i = Some (x i)) \/ exists i, i < n /\ e i = None.
  Proof.
    induction n as [|n [(x & IH)|(i & L & IH)]].
    - left. exists (fun _ => 0%R). intros i L. lia.
    - destruct (e n) as [y|] eqn:Q; [|right; exists n; split; [lia|exact Q]]. left. exists (fun i => if Nat.eqb i n then y else x i). intros i L. destruct (Nat.eqb_spec i n) as [-> | N]; [exact Q|]. apply IH. lia.
    - right. exists i. split; [lia|exact IH].
  Qed.
  Lemma E_some fs i j x y : (forall k, k < size p -> D (nth i fs no_function) s k = Some (x k)) -> (forall k, k < size p -> D (nth j fs no_function) s k = Some (y k)) ->
    E fs i j = Some (form (size p) (entry (cov p)) x y).
  Proof. intros H K. unfold E, form. apply sum_some. intros k Lk. apply sum_some. intros l Ll. now rewrite H, K. Qed.
  Lemma E_none fs i j k : k < size p -> (D (nth i fs no_function) s k = None \/ D (nth j fs no_function) s k = None) -> E fs i j = None.
  Proof.
    intros L [H | H]; unfold E.
    - apply (sum_none _ _ k L). apply (sum_none _ _ k L). now rewrite H.
    - apply (sum_none _ _ k L). apply (sum_none _ _ k L). rewrite H. unfold mul_, lift2. now destruct (D (nth i fs no_function) s k).
  Qed.
  Lemma E_inv fs i j r : E fs i j = Some r -> exists x y, (forall k, k < size p -> D (nth i fs no_function) s k = Some (x k)) /\ (forall k, k < size p -> D (nth j fs no_function) s k = Some (y k)) /\ r = form (size p) (entry (cov p)) x y.
  Proof.
    intro H. destruct (all_or_none (size p) (D (nth i fs no_function) s)) as [(x & X)|(k & L & N)]; [|rewrite (E_none fs i j k L) in H; [discriminate|now left]].
    destruct (all_or_none (size p) (D (nth j fs no_function) s)) as [(y & Y)|(k & L & N)]; [|rewrite (E_none fs i j k L) in H; [discriminate|now right]].
    exists x, y. rewrite (E_some fs i j x y X Y) in H. injection H as <-. auto.
  Qed.

  Lemma D_scale f k c i : D (fun s => add_ (mul_ (Some k) (f s)) (Some c)) s i = mul_ (Some k) (D f s i).
  Proof.
    unfold D. destruct (nth_error (params p) i) as [q|]; [|reflexivity]. destruct (nth_error s (addr q)) as [v|]; [|reflexivity]. set (e := sqrt_ _). clearbody e. cbv zeta.
    destruct (f (put s (addr q) (add_ v e))) as [x|]; [|reflexivity]. destruct (f (put s (addr q) (sub_ v e))) as [y|]; [|reflexivity]. destruct e as [e|]; [|reflexivity].
    unfold mul_, add_, sub_, lift2, div_. destruct (Req_EM_T (2 * e) 0); [reflexivity|]. f_equal. field. intro Z. apply n. rewrite Z. ring.
  Qed.
  Lemma error_scale f k c : (k <> 0)%R -> let g := fun s => add_ (mul_ (Some k) (f s)) (Some c) in
    sqrt_ (quadratic p (size p) (D g s) (D g s)) = mul_ (Some (Rabs k)) (sqrt_ (quadratic p (size p) (D f s) (D f s))).
  Proof.
    intros Nk g. assert (G : forall i, D g s i = mul_ (Some k) (D f s i)) by (intro i; apply D_scale). destruct (all_or_none (size p) (D f s)) as [(x & X)|(i & L & N)].
    - rewrite (quadratic_some _ _ x X), (quadratic_some _ _ (fun i => k * x i)%R) by (intros i L; rewrite G, X by exact L; reflexivity). rewrite form_scale_l, form_scale_r. set (Q := form _ _ x x). clearbody Q. unfold sqrt_.
      assert (K : (0 < k * k)%R) by (assert (0 < k \/ k < 0)%R by lra; nra). assert (Kq : (k * (k * Q) = (k * k) * Q)%R) by ring. rewrite Kq.
      destruct (Rlt_dec Q 0) as [Lq | Gq]; destruct (Rlt_dec (k * k * Q) 0) as [Lk | Gk]; try reflexivity; try (exfalso; nra).
      unfold mul_, lift2. f_equal. rewrite sqrt_mult by lra. f_equal. change (k * k)%R with (Rsqr k). apply sqrt_Rsqr_abs.
    - rewrite (quadratic_none _ _ i L N), (quadratic_none _ (D g s) i L); [reflexivity|]. now rewrite G, N.
  Qed.
End Run.

(** * Affine functions *)
Fixpoint rput (l : list R) (a : nat) (v : R) : list R := match l, a with [], _ => [] | _ :: r, 0 => v :: r | x :: r, S b => x :: rput r b v end.
Lemma put_map vs : forall a v, put (map Some vs) a (Some v) = map Some (rput vs a v).
Proof. induction vs as [|x vs IH]; intros [|a] v; cbn; [reflexivity..|]. now rewrite IH. Qed.
Lemma rput_length vs : forall a v, List.length (rput vs a v) = List.length vs.
Proof. induction vs as [|x s IH]; intros [|a] v; cbn; auto. Qed.
Lemma rput_nth vs : forall a v b, a < List.length vs -> nth b (rput vs a v) 0%R = if Nat.eqb b a then v else nth b vs 0%R.
Proof. induction vs as [|x s IH]; intros [|a] v [|b] L; cbn [rput nth Nat.eqb List.length] in *; try reflexivity; try lia. apply IH. lia. Qed.
Lemma rput_sum w vs a v : a < List.length vs -> over (upto (List.length vs)) (fun b => w b * nth b (rput vs a v) 0)%R = (over (upto (List.length vs)) (fun b => w b * nth b vs 0) + w a * (v - nth a vs 0))%R.
Proof.
  intro L. rewrite <- (over_delta (List.length vs) a (fun b => w b * (v - nth b vs 0))%R L), <- over_plus. apply over_ext. intros b _. rewrite rput_nth by exact L. destruct (Nat.eqb b a); ring.
Qed.
Lemma D_affine p f c w vs i : affine f c w -> i < size p -> valid p (map Some vs) -> (0 < entry (cov p) i i)%R -> D p f (map Some vs) i = Some (slope p w i).
Proof.
  intros A L V P. unfold D, slope. destruct (nth_error (params p) i) as [q|] eqn:Q; [|apply nth_error_None in Q; unfold size in L; lia].
  pose proof (V q (nth_error_In _ _ Q)) as La. rewrite map_length in La. rewrite nth_error_map, (nth_error_nth' vs 0%R La). cbn [option_map]. set (v := nth (addr q) vs 0%R).
  unfold sqrt_. destruct (Rlt_dec (entry (cov p) i i) 0) as [N | _]; [lra|]. pose proof (sqrt_lt_R0 _ P) as Pe. set (e := sqrt (entry (cov p) i i)) in *. clearbody e. cbv zeta. unfold add_, sub_, mul_, lift2.
  rewrite !put_map, !A, !rput_length, !rput_sum by exact La. fold v. unfold div_. destruct (Req_EM_T (2 * e) 0) as [Z | _]; [lra|]. f_equal. field. lra.
Qed.
