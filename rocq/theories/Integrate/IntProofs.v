(** Integrals of polynomials. *)
From Verif.Common Require Import Prelude.
From Coq Require Import Reals Lra Permutation.
From Coquelicot Require Import Hierarchy Continuity Derive AutoDerive RInt RInt_analysis.
From Coq Require Import List.
From Verif.Integrate Require Import Model Spec PolySpec LoopProofs RuleProofs PolyProofs.
Local Open Scope R_scope.

(** ** Polynomials as sums of monomials *)
Definition ev (ts : list (R * list nat)) (t : list R) : R := Rsum (fun x => fst x * mono (snd x) t) ts.
Definition expands (n d : nat) (f : list R -> R) (ts : list (R * list nat)) : Prop :=
  Forall (fun x => List.length (snd x) = n /\ (list_sum (snd x) <= d)%nat) ts /\ (forall t, List.length t = n -> f t = ev ts t).
Fixpoint zip (k k' : list nat) : list nat := match k, k' with a :: r, b :: r' => (a + b)%nat :: zip r r' | _, _ => nil end.
Lemma zip_length n : forall k k', List.length k = n -> List.length k' = n -> List.length (zip k k') = n.
Proof. induction n as [|n IH]; intros [|a k] [|b k'] H H'; cbn in *; try discriminate; auto. Qed.
Lemma zip_sum n : forall k k', List.length k = n -> List.length k' = n -> list_sum (zip k k') = (list_sum k + list_sum k')%nat.
Proof. induction n as [|n IH]; intros [|a k] [|b k'] H H'; try discriminate; auto. change (a + b + list_sum (zip k k') = a + list_sum k + (b + list_sum k'))%nat. cbn in H, H'. rewrite IH by lia. lia. Qed.
Lemma zip_mono n : forall k k' t, List.length k = n -> List.length k' = n -> List.length t = n -> mono (zip k k') t = mono k t * mono k' t.
Proof. induction n as [|n IH]; intros [|a k] [|b k'] [|s t] H H' Ht; cbn in *; try discriminate; [lra|]. rewrite IH by lia. rewrite pow_add. ring. Qed.
Lemma mono_zeros n t : mono (repeat 0%nat n) t = 1.
Proof. revert t. induction n as [|n IH]; intros [|s t]; cbn; auto. rewrite IH. lra. Qed.
Definition unit (n j : nat) : list nat := repeat 0%nat j ++ 1%nat :: repeat 0%nat (n - S j).
Lemma mono_unit n j t : (j < n)%nat -> List.length t = n -> mono (unit n j) t = nth j t 0.
Proof.
  revert n t. induction j as [|j IH]; intros [|n] [|s t] L Ht; cbn in *; try lia.
  - rewrite mono_zeros. ring.
  - unfold unit in IH. rewrite <- (IH n t) by lia. cbn. ring.
Qed.
Lemma list_sum_repeat n : list_sum (repeat 0%nat n) = 0%nat. Proof. induction n; cbn; auto. Qed.
Lemma Rsum_flat {A B} (f : B -> R) (g : A -> list B) l : Rsum f (flat_map g l) = Rsum (fun x => Rsum f (g x)) l.
Proof. induction l as [|x l IH]; [reflexivity|]. cbn [flat_map]. now rewrite Rsum_app, Rsum_cons, IH. Qed.
Lemma poly_expands n d f : poly n d f -> exists ts, expands n d f ts.
Proof.
  induction 1 as [c d|j d J D|d f g _ [ts (F1 & E1)] _ [us (F2 & E2)]|d e f g _ [ts (F1 & E1)] _ [us (F2 & E2)]|d f g _ [ts (F1 & E1)] X].
  - exists ((c, repeat 0%nat n) :: nil). split.
    + constructor; [|constructor]. cbn. rewrite repeat_length, list_sum_repeat. split; [reflexivity|lia].
    + intros t _. unfold ev, Rsum. cbn [map fst snd fold_right]. rewrite mono_zeros. ring.
  - exists ((1, unit n j) :: nil). split.
    + constructor; [|constructor]. cbn [snd]. unfold unit. rewrite app_length, list_sum_app. cbn [List.length list_sum fold_right]. fold (list_sum (repeat 0%nat (n - S j))). rewrite !repeat_length, !list_sum_repeat. split; lia.
    + intros t Ht. unfold ev, Rsum. cbn [map fst snd fold_right]. rewrite mono_unit by assumption. ring.
  - exists (ts ++ us). split; [apply Forall_app; now split|]. intros t Ht. unfold ev. rewrite Rsum_app. rewrite E1, E2 by exact Ht. reflexivity.
  - exists (flat_map (fun x => map (fun y => (fst x * fst y, zip (snd x) (snd y))) us) ts). split.
    + apply Forall_forall. intros p I. apply in_flat_map in I as (x & Ix & I). apply in_map_iff in I as (y & <- & Iy). rewrite Forall_forall in F1, F2. destruct (F1 x Ix) as (L1 & S1), (F2 y Iy) as (L2 & S2). cbn [snd]. rewrite (zip_length n), (zip_sum n) by assumption. split; [reflexivity|lia].
    + intros t Ht. rewrite E1, E2 by exact Ht. unfold ev. rewrite Rsum_flat. rewrite Rmult_comm, <- Rsum_mul. apply Rsum_ext. intros x Ix. rewrite Rsum_map, Rmult_comm, <- Rsum_mul. apply Rsum_ext. intros y Iy. cbn [fst snd].
      rewrite Forall_forall in F1, F2. destruct (F1 x Ix) as (L1 & S1), (F2 y Iy) as (L2 & S2). rewrite (zip_mono n) by assumption. ring.
  - exists ts. split; [exact F1|]. intros t Ht. rewrite <- X by exact Ht. now apply E1.
Qed.
Lemma nth_pt c w t n j : List.length c = n -> List.length w = n -> List.length t = n -> nth j (pt c w t) 0 = nth j c 0 + nth j w 0 * nth j t 0.
Proof. revert w t n j. induction c as [|x c IH]; intros [|y w] [|s t] [|n] [|j] Hc Hw Ht; cbn in *; try discriminate; try ring. apply (IH w t n j); lia. Qed.
Lemma poly_mono n d f : poly n d f -> forall e, (d <= e)%nat -> poly n e f.
Proof.
  induction 1 as [c d|j d J D|d f g P1 I1 P2 I2|d e f g P1 I1 P2 I2|d f g P I X]; intros e' L.
  - apply poly_const.
  - apply poly_var; lia.
  - apply poly_add; auto.
  - replace e' with (d + (e' - d))%nat by lia. apply poly_mul; [exact P1|]. apply I2. lia.
  - apply poly_ext with f; auto.
Qed.
Lemma poly_pt n d F c w : List.length c = n -> List.length w = n -> poly n d F -> poly n d (G F c w).
Proof.
  intros Hc Hw. unfold G. induction 1 as [a d|j d J D|d f g P1 I1 P2 I2|d e f g P1 I1 P2 I2|d f g P I X].
  - apply poly_const.
  - apply poly_ext with (fun t => nth j c 0 + (fun t => nth j w 0 * nth j t 0) t).
    + apply poly_add; [apply poly_const|]. replace d with (0 + d)%nat by lia. apply (poly_mul n 0 d (fun _ => nth j w 0) (fun t => nth j t 0)); [apply poly_const|now apply poly_var].
    + intros t Ht. cbn. now rewrite (nth_pt c w t n).
  - now apply (poly_add n d (fun t => f (pt c w t)) (fun t => g (pt c w t))).
  - now apply (poly_mul n d e (fun t => f (pt c w t)) (fun t => g (pt c w t))).
  - apply poly_ext with (fun t => f (pt c w t)); [exact I|]. intros t Ht. apply X. now apply pt_length.
Qed.

(** ** Integration, term by term *)
Lemma is_RInt_sum {X} (a b : R) (l : list X) (h : X -> R -> R) (v : X -> R) : (forall x, In x l -> is_RInt (h x) a b (v x)) -> is_RInt (fun s => Rsum (fun x => h x s) l) a b (Rsum v l).
Proof.
  induction l as [|x l IH]; intro H.
  - pose proof (is_RInt_const a b 0) as C. unfold scal in C. cbn in C. unfold mult in C. cbn in C. rewrite Rmult_0_r in C. exact C.
  - rewrite Rsum_cons. apply (is_RInt_plus (h x) (fun s => Rsum (fun x => h x s) l)); [apply H; now left|]. apply IH. intros y Iy. apply H. now right.
Qed.
Lemma is_RInt_pow k c w : w <> 0 -> is_RInt (fun x => ((x - c) / w) ^ k) (c - w) (c + w) (2 * w * mean k).
Proof.
  intro W. assert (E : 2 * w * mean k = minus (w / INR (S k) * ((c + w - c) / w) ^ S k) (w / INR (S k) * ((c - w - c) / w) ^ S k)).
  { unfold minus, plus, opp. cbn [Hierarchy.AbelianGroup.plus]. change (2 * w * mean k = w / INR (S k) * ((c + w - c) / w) ^ S k + - (w / INR (S k) * ((c - w - c) / w) ^ S k)).
    replace ((c + w - c) / w) with 1 by (field; exact W). replace ((c - w - c) / w) with (-1) by (field; exact W). rewrite pow1. unfold mean. assert (N : INR (S k) <> 0) by (apply not_0_INR; lia).
    destruct (Nat.even k) eqn:Ev.
    - apply Nat.even_spec in Ev as [m ->]. rewrite pow_1_odd. field. exact N.
    - assert (O : Nat.odd k = true) by (rewrite <- Nat.negb_even, Ev; reflexivity). apply Nat.odd_spec in O as [m ->]. replace (S (2 * m + 1)) with (2 * (S m))%nat by lia. rewrite pow_1_even. field. replace (2 * S m)%nat with (S (2 * m + 1)) by lia. exact N. }
  rewrite E. apply (is_RInt_derive (fun x => w / INR (S k) * ((x - c) / w) ^ S k) (fun x => ((x - c) / w) ^ k)).
  - intros x _. auto_derive; [trivial|]. change (match k with O => 1 | S _ => INR k + 1 end) with (INR (S k)). replace (Init.Nat.pred (S k)) with k by reflexivity. change ((x + - c) * / w) with ((x - c) / w). generalize (((x - c) / w) ^ k). intro y. field. split; [exact W|]. apply not_0_INR. lia.
  - intros x _. apply (ex_derive_continuous (fun x => ((x - c) / w) ^ k)). auto_derive. trivial.
Qed.
Definition piece (c w : R) (k : nat) : R := ((c + w) ^ S k - (c - w) ^ S k) / INR (S k).
Lemma is_RInt_pow' k c w : is_RInt (fun x => x ^ k) (c - w) (c + w) (piece c w k).
Proof.
  replace (piece c w k) with (minus ((c + w) ^ S k / INR (S k)) ((c - w) ^ S k / INR (S k))).
  2:{ change ((c + w) ^ S k / INR (S k) + - ((c - w) ^ S k / INR (S k)) = piece c w k). unfold piece. field. apply not_0_INR. lia. }
  apply (is_RInt_derive (fun x => x ^ S k / INR (S k)) (fun x => x ^ k)).
  - intros x _. auto_derive; [trivial|]. change (match k with O => 1 | S _ => INR k + 1 end) with (INR (S k)). replace (Init.Nat.pred (S k)) with k by reflexivity. field. apply not_0_INR. lia.
  - intros x _. apply (ex_derive_continuous (fun x => x ^ k)). auto_derive. trivial.
Qed.
Lemma Int_ext c w f g : List.length w = List.length c -> (forall t, List.length t = List.length c -> f t = g t) -> Int c w f = Int c w g.
Proof.
  revert w f g. induction c as [|c0 c IH]; intros [|w0 w] f g L E; cbn [List.length] in *; try discriminate; cbn [Int]; [now apply E|].
  apply RInt_ext. intros x _. apply IH; [lia|]. intros t Ht. apply E. cbn. lia.
Qed.
Lemma Int_centred n : forall c w F ts, List.length c = n -> List.length w = n -> Forall (fun x => List.length (snd x) = n) ts -> (forall t, List.length t = n -> F (pt c w t) = ev ts t) -> Int c w F = vol w * Rsum (fun x => fst x * M (snd x)) ts.
Proof.
  induction n as [|n IH]; intros [|c0 c] [|w0 w] F ts Hc Hw Ht E; try discriminate.
  - cbn [Int vol]. rewrite Rmult_1_l. specialize (E nil eq_refl). cbn in E. rewrite E. unfold ev. apply Rsum_ext. intros [a k] I. rewrite Forall_forall in Ht. specialize (Ht _ I). cbn in *. destruct k; [cbn; ring|discriminate].
  - cbn [Int vol]. cbn in Hc, Hw. destruct (Req_dec w0 0) as [W|W].
    { subst w0. replace (c0 - 0) with (c0 + 0) by ring. rewrite RInt_point. unfold zero. cbn. ring. }
    rewrite (RInt_ext _ (fun x => Rsum (fun y => (vol w * fst y * M (tl (snd y))) * ((x - c0) / w0) ^ hd 0%nat (snd y)) ts)).
    + rewrite (is_RInt_unique _ _ _ (Rsum (fun y => (vol w * fst y * M (tl (snd y))) * (2 * w0 * mean (hd 0%nat (snd y)))) ts)).
      * rewrite <- Rsum_mul. apply Rsum_ext. intros [a k] I. rewrite Forall_forall in Ht. specialize (Ht _ I). cbn [fst snd] in *. destruct k as [|k0 k]; [discriminate|]. cbn [hd tl M]. ring.
      * apply is_RInt_sum. intros y _. apply (is_RInt_scal (fun x => ((x - c0) / w0) ^ hd 0%nat (snd y))). now apply is_RInt_pow.
    + intros x _. set (s := (x - c0) / w0). rewrite (IH c w _ (map (fun y => (fst y * s ^ hd 0%nat (snd y), tl (snd y))) ts)); try lia.
      * rewrite Rsum_map, <- Rsum_mul. apply Rsum_ext. intros y _. cbn [fst snd]. ring.
      * apply Forall_forall. intros z I. apply in_map_iff in I as (y & <- & I). rewrite Forall_forall in Ht. specialize (Ht _ I). cbn [snd]. destruct (snd y); cbn in *; lia.
      * intros t L. specialize (E (s :: t)). cbn in E. rewrite <- (Rplus_minus c0 x). replace (x - c0) with (w0 * s) by (unfold s; field; exact W). rewrite E by lia. unfold ev. rewrite Rsum_map. apply Rsum_ext. intros [a k] I. rewrite Forall_forall in Ht. specialize (Ht _ I). cbn [fst snd] in *. destruct k as [|k0 k]; [discriminate|]. cbn. ring.
Qed.
Fixpoint pieces (c w : list R) (k : list nat) : R := match c, w, k with x :: c', y :: w', a :: k' => piece x y a * pieces c' w' k' | _, _, _ => 1 end.
Lemma Int_terms n : forall c w F ts, List.length c = n -> List.length w = n -> Forall (fun x => List.length (snd x) = n) ts -> (forall t, List.length t = n -> F t = ev ts t) -> Int c w F = Rsum (fun x => fst x * pieces c w (snd x)) ts.
Proof.
  induction n as [|n IH]; intros [|c0 c] [|w0 w] F ts Hc Hw Ht E; try discriminate.
  - cbn [Int]. rewrite (E nil eq_refl). unfold ev. apply Rsum_ext. intros [a k] I. rewrite Forall_forall in Ht. specialize (Ht _ I). cbn in *. destruct k; [cbn; ring|discriminate].
  - cbn [Int]. cbn in Hc, Hw.
    rewrite (RInt_ext _ (fun x => Rsum (fun y => (fst y * pieces c w (tl (snd y))) * x ^ hd 0%nat (snd y)) ts)).
    + rewrite (is_RInt_unique _ _ _ (Rsum (fun y => (fst y * pieces c w (tl (snd y))) * piece c0 w0 (hd 0%nat (snd y))) ts)).
      * apply Rsum_ext. intros [a k] I. rewrite Forall_forall in Ht. specialize (Ht _ I). cbn [fst snd] in *. destruct k as [|k0 k]; [discriminate|]. cbn [hd tl pieces]. ring.
      * apply is_RInt_sum. intros y _. apply (is_RInt_scal (fun x => x ^ hd 0%nat (snd y))). now apply is_RInt_pow'.
    + intros x _. rewrite (IH c w _ (map (fun y => (fst y * x ^ hd 0%nat (snd y), tl (snd y))) ts)); try lia.
      * rewrite Rsum_map. apply Rsum_ext. intros y _. cbn [fst snd]. ring.
      * apply Forall_forall. intros z I. apply in_map_iff in I as (y & <- & I). rewrite Forall_forall in Ht. specialize (Ht _ I). cbn [snd]. destruct (snd y); cbn in *; lia.
      * intros t L. rewrite (E (x :: t)) by (cbn; lia). unfold ev. rewrite Rsum_map. apply Rsum_ext. intros [a k] I. rewrite Forall_forall in Ht. specialize (Ht _ I). cbn [fst snd] in *. destruct k as [|k0 k]; [discriminate|]. cbn. ring.
Qed.
Lemma piece_halves c w k : piece c w k = piece (c - w / 2) (w / 2) k + piece (c + w / 2) (w / 2) k.
Proof.
  unfold piece. replace (c - w / 2 + w / 2) with c by field. replace (c - w / 2 - w / 2) with (c - w) by field. replace (c + w / 2 + w / 2) with (c + w) by field. replace (c + w / 2 - w / 2) with c by field. field. apply not_0_INR. lia.
Qed.
Lemma pieces_halves n : forall j c w k, List.length c = n -> List.length w = n -> List.length k = n -> (j < n)%nat ->
  pieces c w k = pieces (change (fun x => x - nth j w 0 / 2) j c) (change (fun x => x / 2) j w) k + pieces (change (fun x => x + nth j w 0 / 2) j c) (change (fun x => x / 2) j w) k.
Proof.
  induction n as [|n IH]; intros j [|x c] [|y w] [|a k] Hc Hw Hk J; try lia; try discriminate. destruct j as [|j].
  - cbn [change nth pieces]. rewrite (piece_halves x y a). ring.
  - cbn [change nth pieces]. rewrite (IH j c w k) by (cbn in *; lia). ring.
Qed.
Lemma Int_halves n d F r j : poly n d F -> List.length (fst r) = n -> List.length (snd r) = n -> (j < n)%nat ->
  Int (fst r) (snd r) F = Int (fst (lower j r)) (snd (lower j r)) F + Int (fst (upper j r)) (snd (upper j r)) F.
Proof.
  intros P Hc Hw J. destruct (poly_expands n d F P) as (ts & Ht & E). assert (Ht' : Forall (fun x => List.length (snd x) = n) ts) by (eapply Forall_impl; [|exact Ht]; cbn; tauto).
  unfold lower, upper. cbn [fst snd]. rewrite !(Int_terms n _ _ F ts) by (rewrite ?change_length; assumption).
  rewrite <- Rsum_add. apply Rsum_ext. intros x I. rewrite Forall_forall in Ht'. rewrite (pieces_halves n j) by auto. ring.
Qed.

(** ** The rule is exact *)
Lemma volume_vol n : forall w, List.length w = n -> volume n w = vol w.
Proof.
  assert (X : forall l w acc, fold_left (fun x j => x * nth j w 0) l acc = acc * fold_right Rmult 1 (map (fun j => nth j w 0) l)).
  { induction l as [|j l IH]; intros w acc; cbn; [ring|]. rewrite IH. ring. }
  induction n as [|n IH]; intros [|x w] H; try discriminate; [reflexivity|]. unfold volume. rewrite X, seq_succ. cbn [map fold_right nth vol pow]. rewrite map_map. rewrite <- IH by (cbn in H; lia). unfold volume. rewrite X. cbn [nth]. ring.
Qed.
Lemma functional_exact n L d F ts : functional n L -> expands n d F ts -> (forall k, List.length k = n -> (list_sum k <= d)%nat -> L (mono k) = M k) -> L F = Rsum (fun x => fst x * M (snd x)) ts.
Proof.
  intros Lf (Ht & E) X. pose proof Lf as (l1 & l2 & l3). rewrite (l1 F (ev ts)) by exact E. unfold ev. rewrite (functional_sum n L ts (fun x t => fst x * mono (snd x) t) Lf). apply Rsum_ext. intros x I. rewrite l3. rewrite Forall_forall in Ht. destruct (Ht x I) as (Lx & Sx). now rewrite X.
Qed.
Lemma seven_functional n l2 l4 l5 : functional n (seven n l2 l4 l5).
Proof. unfold seven. repeat apply functional_add; apply functional_mul; auto using at0_functional, A1_functional, A2_functional, A5_functional. Qed.
Lemma five_functional n l2 l4 : functional n (five n l2 l4).
Proof. unfold five. repeat apply functional_add; apply functional_mul; auto using at0_functional, A1_functional, A2_functional. Qed.
Lemma rule_exact K n F c w : ideal K -> (2 <= n <= 15)%nat -> List.length c = n -> List.length w = n -> poly n 7 F ->
  exists v e ax, integrate_fp K F n c w = Ok (v, e, ax) /\ v = Int c w F /\ (poly n 5 F -> e = 0).
Proof.
  intros I N Hc Hw P. destruct (rule_value K F n c w Hc Hw _ _ _ _ _ (proj1 N) (ideal_wpn1 K I n N) (ideal_wpn3 K I n N) (ideal_wn1 K I n N) (ideal_wn3 K I n N) (ideal_wn5 K I n N)) as (ax & E & _).
  cbn zeta in E. rewrite (ideal_w2 K I), (ideal_w4 K I), (ideal_wp2 K I), (ideal_wp4 K I) in E. rewrite (volume_vol n w Hw) in E.
  destruct (poly_expands n 7 _ (poly_pt n 7 F c w Hc Hw P)) as (ts & X). 
  assert (V : Int c w F = vol w * Rsum (fun x => fst x * M (snd x)) ts).
  { destruct X as (X1 & X2). apply (Int_centred n); auto. eapply Forall_impl; [|exact X1]. cbn. tauto. }
  assert (V7 : seven n (xl2 K) (xl4 K) (xl5 K) (G F c w) = Rsum (fun x => fst x * M (snd x)) ts).
  { apply (functional_exact n _ 7 _ ts (seven_functional n _ _ _) X). intros k Lk Sk. subst n. rewrite <- Lk. apply seven_mono; auto using ideal_xl2, ideal_xl4, ideal_xl5. }
  do 3 eexists. split; [exact E|]. split.
  - rewrite V, <- V7. reflexivity.
  - intro P5. destruct (poly_expands n 5 _ (poly_pt n 5 F c w Hc Hw P5)) as (us & Y).
    assert (V' : Int c w F = vol w * Rsum (fun x => fst x * M (snd x)) us).
    { destruct Y as (X1 & X2). apply (Int_centred n); auto. eapply Forall_impl; [|exact X1]. cbn. tauto. }
    assert (V5 : five n (xl2 K) (xl4 K) (G F c w) = Rsum (fun x => fst x * M (snd x)) us).
    { apply (functional_exact n _ 5 _ us (five_functional n _ _) Y). intros k Lk Sk. subst n. rewrite <- Lk. apply five_mono; auto using ideal_xl2, ideal_xl4, ideal_xl5. }
    match goal with |- Rabs (?a - ?b) = 0 => replace a with (Int c w F) by (rewrite V, <- V7; reflexivity); replace b with (Int c w F) by (rewrite V', <- V5; reflexivity) end.
    rewrite Rminus_diag_eq by reflexivity. apply Rabs_R0.
Qed.
