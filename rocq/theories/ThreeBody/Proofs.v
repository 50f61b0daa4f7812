From Coq Require Import Reals List Lra Lia String Decimal DecimalString DecimalNat Arith.
From Coquelicot Require Import Complex.
From Verif.Common Require Import Prelude.
From Verif.ThreeBody Require Import Model Spec.
Import ListNotations.
Local Open Scope R_scope.

(** ** The matrix element *)
Lemma csum_app l k : csum (l ++ k) = (csum l + csum k)%C.
Proof. induction l as [|x l IH]; cbn [csum fold_right app]; [symmetry; apply Cplus_0_l|]. unfold csum in *. now rewrite IH, Cplus_assoc. Qed.
Lemma csum_map_plus {A} (f g : A -> C) l : csum (map (fun x => f x + g x)%C l) = (csum (map f l) + csum (map g l))%C.
Proof. induction l as [|x l IH]; unfold csum in *; cbn [map fold_right]; [now rewrite Cplus_0_l|]. rewrite IH. ring. Qed.
Lemma csum_map_mult {A} (f : A -> C) c l : csum (map (fun x => c * f x)%C l) = (c * csum (map f l))%C.
Proof. induction l as [|x l IH]; unfold csum in *; cbn [map fold_right]; [ring|]. rewrite IH. ring. Qed.
Lemma csum_map_zero {A} (l : list A) : csum (map (fun _ => RtoC 0) l) = RtoC 0.
Proof. induction l as [|x l IH]; unfold csum in *; cbn [map fold_right]; [reflexivity|]. rewrite IH. ring. Qed.
Lemma csum_swap {A B} (f : A -> B -> C) l k : csum (map (fun a => csum (map (f a) k)) l) = csum (map (fun b => csum (map (fun a => f a b) l)) k).
Proof.
  induction l as [|a l IH]; [cbn; symmetry; apply csum_map_zero|]. cbn [map]. change (csum (?x :: ?r)) with (x + csum r)%C. rewrite IH, <- csum_map_plus. reflexivity.
Qed.
Lemma csum_ext_in {A} (f g : A -> C) l : (forall x, In x l -> f x = g x) -> csum (map f l) = csum (map g l).
Proof. intro H. f_equal. now apply map_ext_in. Qed.
Lemma fold_csum {A} (f : A -> C) l : forall a, fold_left (fun r x => (r + f x)%C) l a = (a + csum (map f l))%C.
Proof. induction l as [|x l IH]; intro a; cbn [fold_left map]; [unfold csum; cbn; ring|]. rewrite IH. unfold csum. cbn [fold_right]. ring. Qed.
Lemma csum_rev l : csum (rev l) = csum l.
Proof. induction l as [|x l IH]; [reflexivity|]. cbn [rev]. rewrite csum_app, IH. unfold csum. cbn [fold_right]. ring. Qed.
Lemma dot_csum r A B : dot r A B = csum (map (fun co => (RtoC (metricSgn co) * A co * B co)%C) (coords r)).
Proof. unfold dot. rewrite (fold_csum (fun co => (RtoC (metricSgn co) * A co * B co)%C)), map_rev, csum_rev. apply Cplus_0_l. Qed.
Lemma pairs_csum r js : pairs r js = csum (map (fun a => csum (map (fun b => dot r a (conjugate b)) js)) js).
Proof.
  unfold pairs. assert (G : forall l t, fold_left (fun total a => fold_left (fun total b => (total + dot r a (conjugate b))%C) js total) l t = (t + csum (map (fun a => csum (map (fun b => dot r a (conjugate b)) js)) l))%C).
  { induction l as [|a l IH]; intro t; cbn [fold_left map]; [unfold csum; cbn; ring|]. rewrite IH, (fold_csum (fun b => dot r a (conjugate b))). unfold csum at 4. cbn [fold_right]. fold (csum (map (fun a => csum (map (fun b => dot r a (conjugate b)) js)) l)). ring. }
  rewrite G. apply Cplus_0_l.
Qed.
Lemma cconj_csum l : Cconj (csum l) = csum (map Cconj l).
Proof. induction l as [|x l IH]; [cbn; unfold Cconj, RtoC; cbn; f_equal; ring|]. unfold csum in *. cbn [map fold_right]. rewrite <- IH. unfold Cconj, Cplus. cbn. f_equal. ring. Qed.
Lemma cmul_conj z : (z * Cconj z)%C = RtoC (sqmod z).
Proof. destruct z as [a b]. unfold Cmult, Cconj, RtoC, sqmod. cbn. f_equal; ring. Qed.
Lemma pairs_square r js : pairs r js = csum (map (fun co => RtoC (metricSgn co) * RtoC (sqmod (csum (map (fun j => j co) js))))%C (coords r)).
Proof.
  rewrite pairs_csum. rewrite (csum_ext_in _ (fun a => csum (map (fun co => (RtoC (metricSgn co) * (a co * Cconj (csum (map (fun j => j co) js))))%C) (coords r)))).
  - rewrite csum_swap. apply csum_ext_in. intros co _. rewrite csum_map_mult. f_equal. rewrite <- cmul_conj. set (z := Cconj _). rewrite (csum_ext_in _ (fun a => (z * a co)%C)) by (intros; ring). rewrite csum_map_mult. ring.
  - intros a _. rewrite (csum_ext_in _ (fun b => csum (map (fun co => (RtoC (metricSgn co) * a co * Cconj (b co))%C) (coords r)))) by (intros; apply dot_csum).
    rewrite csum_swap. apply csum_ext_in. intros co _. rewrite csum_map_mult, cconj_csum, map_map. ring.
Qed.
Lemma metric_go co : forall p, fold_left (fun prod c => prod * (if Nat.eqb c 3 then 1 else -1)) co p = p * metricSgn co.
Proof.
  unfold metricSgn. induction co as [|c co IH]; intro p; cbn [fold_left]; [ring|]. rewrite IH, (IH (1 * _)). ring.
Qed.
Lemma metric_cons c co : metricSgn (c :: co) = (if Nat.eqb c 3 then 1 else -1) * metricSgn co.
Proof. unfold metricSgn at 1. cbn [fold_left]. rewrite metric_go. ring. Qed.
Lemma metric_spatial r : forall co, In co (indices 3 r) -> metricSgn co = (-1) ^ r /\ ~ In 3%nat co.
Proof.
  induction r as [|r IH]; intros co I; [destruct I as [<- | []]; split; [reflexivity|intros []]|]. cbn [indices] in I. apply in_flat_map in I as (c & Hc & I). apply in_map_iff in I as (co' & <- & I). destruct (IH _ I) as [M N].
  rewrite metric_cons, M. apply in_seq in Hc. destruct (Nat.eqb_spec c 3) as [|Nc]; [lia|]. split; [cbn [pow]; ring|]. intros [E|E]; [lia|contradiction].
Qed.
Lemma csum_flat {A B} (f : A -> list B) (g : B -> C) l : csum (map g (flat_map f l)) = csum (map (fun a => csum (map g (f a))) l).
Proof. induction l as [|a l IH]; [reflexivity|]. cbn [flat_map map]. rewrite map_app, csum_app, IH. reflexivity. Qed.
Lemma coords_spatial r : forall g : list nat -> C, (forall co, In 3%nat co -> g co = RtoC 0) -> csum (map g (coords r)) = csum (map g (indices 3 r)).
Proof.
  induction r as [|r IH]; intros g Z; [reflexivity|]. cbn [coords indices]. rewrite !csum_flat. cbn [seq map]. rewrite !map_map.
  assert (L : csum (map (fun co => g (3%nat :: co)) (coords r)) = RtoC 0). { rewrite (csum_ext_in _ (fun _ => RtoC 0)) by (intros; apply Z; now left). apply csum_map_zero. }
  change (csum [?a; ?b; ?c; ?d]) with (a + (b + (c + (d + RtoC 0))))%C. change (csum [?a; ?b; ?c]) with (a + (b + (c + RtoC 0)))%C.
  change (fun x => g (3 :: x)%nat) with (fun co => g (3%nat :: co)). rewrite L. rewrite !(IH (fun co => g (_ :: co))) by (intros co I; apply Z; now right). ring.
Qed.
Lemma csum_real l : csum (map RtoC l) = RtoC (rsum l).
Proof. induction l as [|x l IH]; [reflexivity|]. cbn [map]. unfold csum, rsum in *. cbn [fold_right]. rewrite IH. unfold RtoC, Cplus. cbn. f_equal. ring. Qed.
Lemma sign_even k : sign (2 * k) = Some ((-1) ^ k).
Proof.
  unfold sign. rewrite Nat.even_mul. cbn [Nat.even orb]. now rewrite Nat.div2_double.
Qed.
Lemma spinAverage_spatial J js : Forall spatial js -> spinAverage (2 * J) J js = Some (RtoC (rsum (map (fun co => sqmod (csum (map (fun j => j co) js))) (indices 3 J)))).
Proof.
  intro S. unfold spinAverage. rewrite sign_even. f_equal. rewrite pairs_square. rewrite coords_spatial.
  - rewrite <- csum_map_mult, <- csum_real, map_map. apply csum_ext_in. intros co I. destruct (metric_spatial _ _ I) as [-> _].
    replace (RtoC ((-1) ^ J) * (RtoC ((-1) ^ J) * RtoC (sqmod (csum (map (fun j => j co) js)))))%C with (RtoC ((-1) ^ J * (-1) ^ J * sqmod (csum (map (fun j => j co) js)))) by (unfold RtoC, Cmult; cbn; f_equal; ring).
    replace ((-1) ^ J * (-1) ^ J) with 1; [now rewrite Rmult_1_l|]. rewrite <- Rpow_mult_distr. replace (-1 * -1) with 1 by ring. now rewrite pow1.
  - intros co I. rewrite (csum_ext_in _ (fun _ => RtoC 0)); [|intros j Ij; exact (proj1 (Forall_forall _ _) S j Ij co I)]. rewrite csum_map_zero. unfold sqmod. cbn. unfold RtoC, Cmult. cbn. f_equal; ring.
Qed.

(** ** Knots *)
Lemma getWidth_numbers ws s : getWidth ws s = numbers (map (fun w => getPartial w s) ws).
Proof.
  unfold getWidth. assert (G : forall l x, fold_left (fun G w => match getPartial w s with Some wp => G + wp | None => G end) l x = x + numbers (map (fun w => getPartial w s) l)).
  { induction l as [|w l IH]; intro x; cbn [fold_left map numbers]; [ring|]. rewrite IH. destruct (getPartial w s); ring. }
  rewrite G. ring.
Qed.
Lemma to_string_inj a b : to_string a = to_string b -> a = b.
Proof.
  unfold to_string. intro E. apply (f_equal string_of_list_ascii) in E. rewrite !string_of_list_ascii_of_string in E. apply (f_equal NilEmpty.uint_of_string) in E. rewrite !NilEmpty.usu in E. injection E as E. now apply DecimalNat.Unsigned.to_uint_inj.
Qed.
Lemma knotName_inj h a b : knotName h a = knotName h b -> a = b.
Proof. unfold knotName. intro E. apply app_inv_head in E. apply app_inv_head in E. now apply to_string_inj. Qed.
Lemma find_in n ps : find n ps = None <-> ~ In n (map fst ps).
Proof.
  induction ps as [|[k v] ps IH]; cbn [find map fst]; [split; [intros _ []|reflexivity]|]. destruct (str_eqb n k) eqn:E; [apply str_eqb_eq in E as ->; split; [discriminate|intro H; destruct H; now left]|].
  apply str_eqb_neq in E. rewrite IH. split; [intros H [F|F]; [congruence|contradiction]|]. intros H F. apply H. now right.
Qed.
Lemma set_names n v ps : map fst (setCurrentFitVal n v ps) = map fst ps.
Proof. induction ps as [|[k u] ps IH]; cbn; [reflexivity|]. destruct (str_eqb n k); cbn; [reflexivity|]. now rewrite IH. Qed.
Lemma set_find n v ps k : find k (setCurrentFitVal n v ps) = if str_eqb k n then match find n ps with Some _ => Some v | None => None end else find k ps.
Proof.
  induction ps as [|[j u] ps IH]; cbn [setCurrentFitVal find]; [now destruct (str_eqb k n)|]. destruct (str_eqb n j) eqn:E; cbn [find].
  - apply str_eqb_eq in E as ->. destruct (str_eqb k j); reflexivity.
  - destruct (str_eqb k j) eqn:F; [|exact IH]. apply str_eqb_eq in F as ->. destruct (str_eqb j n) eqn:G; [|reflexivity]. apply str_eqb_eq in G as ->. rewrite str_eqb_refl in E. discriminate.
Qed.
Definition step_knot (head : str) (f : nat -> option R) (ps : params) (c : nat) : params :=
  match find (knotName head c) ps with Some _ => setCurrentFitVal (knotName head c) (f c) ps | None => ps end.
Lemma steps_names head f l : forall ps, map fst (fold_left (step_knot head f) l ps) = map fst ps.
Proof. induction l as [|c l IH]; intro ps; cbn [fold_left]; [reflexivity|]. rewrite IH. unfold step_knot. destruct (find (knotName head c) ps); [apply set_names|reflexivity]. Qed.
Lemma steps_keep head f l : forall ps k, (forall c, In c l -> k <> knotName head c) -> find k (fold_left (step_knot head f) l ps) = find k ps.
Proof.
  induction l as [|c l IH]; intros ps k N; cbn [fold_left]; [reflexivity|]. rewrite IH by (intros; apply N; now right). unfold step_knot. destruct (find (knotName head c) ps); [|reflexivity]. rewrite set_find. destruct (str_eqb k (knotName head c)) eqn:E; [|reflexivity].
  apply str_eqb_eq in E. destruct (N c); [now left|exact E].
Qed.
Lemma steps_set head f l : NoDup l -> forall ps c, In c l -> find (knotName head c) (fold_left (step_knot head f) l ps) = match find (knotName head c) ps with Some _ => Some (f c) | None => None end.
Proof.
  induction 1 as [|x l N _ IH]; intros ps c I; [destruct I|]. cbn [fold_left]. destruct I as [<- |I].
  - rewrite steps_keep by (intros d D E; apply knotName_inj in E as ->; contradiction). unfold step_knot. destruct (find (knotName head x) ps) eqn:F; [|exact F]. now rewrite set_find, str_eqb_refl, F.
  - rewrite IH by exact I. unfold step_knot. destruct (find (knotName head x) ps) eqn:F; [|reflexivity]. rewrite set_find. destruct (str_eqb (knotName head c) (knotName head x)) eqn:E; [|reflexivity]. apply str_eqb_eq, knotName_inj in E as ->. contradiction.
Qed.
Lemma update_ok head ws n min max ps mNorm m :
  (2 <= n)%nat -> n <> 999%nat -> (mNorm = 0 /\ find (head ++ S_ "_mass") ps = Some (Some m) \/ mNorm <> 0 /\ m = mNorm) -> getWidth ws (m * m) <> 0 ->
  exists ps', updateRunningWidth head ws (construct n min max) ps mNorm = Ok ps' /\ map fst ps' = map fst ps /\
    (forall c, (c < n)%nat -> find (knotName head c) ps' = match find (knotName head c) ps with Some _ => Some (Some (getWidth ws (min + INR c * ((max - min) / INR (n - 1))) / getWidth ws (m * m))) | None => None end) /\
    (forall k, (forall c, (c < n)%nat -> k <> knotName head c) -> find k ps' = find k ps).
Proof.
  intros Hn N9 Hm Nz. unfold updateRunningWidth. assert (B : (if Req_EM_T mNorm 0 then of_opt (find (head ++ S_ "_mass") ps) else Ok (Some mNorm)) = Ok (Some m)).
  { destruct Hm as [[-> F]|[Z ->]]; [destruct (Req_EM_T 0 0); [now rewrite F|congruence]|]. destruct (Req_EM_T mNorm 0); [contradiction|reflexivity]. }
  rewrite B. cbn [bind]. unfold construct. destruct (Nat.eqb_spec n 999); [contradiction|]. destruct n as [|[|n]]; [lia|lia|]. cbn [setAxis m_nKnots m_step m_min]. unfold over at 1.
  assert (Nn : INR (S n) <> 0) by (apply not_0_INR; discriminate). destruct (Req_EM_T (INR (S n)) 0); [contradiction|]. set (h := (max - min) / INR (S n)).
  set (f := knot ws (getWidth ws (m * m)) min (Some h)).
  exists (fold_left (step_knot head f) (seq 0 (S (S n))) ps). split; [reflexivity|]. split; [apply steps_names|]. split.
  - intros c C. rewrite steps_set; [|apply seq_NoDup|apply in_seq; lia]. destruct (find (knotName head c) ps); [|reflexivity]. unfold f, knot, over. destruct (Req_EM_T (getWidth ws (m * m)) 0); [contradiction|]. replace (S (S n) - 1)%nat with (S n) by lia. reflexivity.
  - intros k N. apply steps_keep. intros c C. apply N. apply in_seq in C. lia.
Qed.
Definition scaled (k : R) (w : partialWidth) : partialWidth := {| twoSpin := twoSpin w; integral := fun s => match integral w s with Some x => Some (k * x) | None => None end |}.
Lemma getPartial_scaled k w s : getPartial (scaled k w) s = match getPartial w s with Some x => Some (k * x) | None => None end.
Proof. unfold getPartial, scaled. cbn. destruct (sign (twoSpin w)); [|reflexivity]. destruct (integral w s); [|reflexivity]. f_equal. ring. Qed.
Lemma getWidth_scaled k ws s : getWidth (map (scaled k) ws) s = k * getWidth ws s.
Proof.
  rewrite !getWidth_numbers, map_map. induction ws as [|w ws IH]; cbn [map numbers]; [ring|]. rewrite getPartial_scaled. destruct (getPartial w s); [|exact IH]. cbn [numbers]. rewrite IH. ring.
Qed.
Lemma update_scaled k head ws a ps mNorm : k <> 0 -> updateRunningWidth head (map (scaled k) ws) a ps mNorm = updateRunningWidth head ws a ps mNorm.
Proof.
  intro K. unfold updateRunningWidth. destruct (if Req_EM_T mNorm 0 then _ else _) as [m| | |]; cbn [bind]; try reflexivity. destruct (m_nKnots a) as [|n]; [reflexivity|]. destruct (m_step a) as [h|]; [|reflexivity]. f_equal.
  assert (O : forall x y, over (k * x) (k * y) = over x y).
  { intros x y. unfold over. destruct (Req_EM_T (k * y) 0) as [E|E], (Req_EM_T y 0) as [F|F]; try reflexivity; [apply Rmult_integral in E as [|]; contradiction|subst y; destruct E; ring|f_equal; field; now split]. }
  assert (Kn : forall c, knot (map (scaled k) ws) match m with Some m0 => getWidth (map (scaled k) ws) (m0 * m0) | None => 0 end (m_min a) h c = knot ws match m with Some m0 => getWidth ws (m0 * m0) | None => 0 end (m_min a) h c).
  { intro c. unfold knot. replace (match m with Some m0 => getWidth (map (scaled k) ws) (m0 * m0) | None => 0 end) with (k * match m with Some m0 => getWidth ws (m0 * m0) | None => 0 end) by (destruct m; [now rewrite getWidth_scaled|ring]).
    destruct h as [h|]; [rewrite getWidth_scaled; apply O|]. rewrite <- (Rmult_0_r k) at 1. apply O. }
  generalize (seq 0 (S n)) as l. intro l. revert ps. induction l as [|c l IH]; intro ps; cbn [fold_left]; [reflexivity|]. rewrite Kn. apply IH.
Qed.
Lemma half_width ws s : Forall (fun w => Nat.even (twoSpin w) = false) ws -> getWidth ws s = 0.
Proof. intro H. rewrite getWidth_numbers. induction H as [|w ws E _ IH]; [reflexivity|]. cbn [map numbers]. unfold getPartial at 1, sign. rewrite E. exact IH. Qed.
Lemma half_knots head ws n min max ps mNorm ps' : Forall (fun w => Nat.even (twoSpin w) = false) ws -> n <> 999%nat -> updateRunningWidth head ws (construct n min max) ps mNorm = Ok ps' ->
  forall c v, (c < n)%nat -> find (knotName head c) ps' = Some v -> v = None.
Proof.
  intros H N9 E c v C. unfold updateRunningWidth in E. destruct (if Req_EM_T mNorm 0 then _ else _) as [m| | |]; cbn [bind] in E; try discriminate. unfold construct in E. destruct (Nat.eqb_spec n 999); [contradiction|].
  destruct n as [|n]; [lia|]. cbn [setAxis m_nKnots m_step m_min] in E. set (h := over (max - min) (INR n)) in *. set (norm := match m with Some m0 => getWidth ws (m0 * m0) | None => 0 end) in *.
  assert (Z : norm = 0) by (unfold norm; destruct m; [now apply half_width|reflexivity]). set (f := knot ws norm min h). change (Ok (fold_left (step_knot head f) (seq 0 (S n)) ps) = Ok ps') in E. injection E as <-.
  change (step_knot head f (ps) 0) with (step_knot head f ps 0%nat). change (fold_left (step_knot head f) (seq 1 n) (step_knot head f ps 0)) with (fold_left (step_knot head f) (seq 0 (S n)) ps).
  rewrite steps_set; [|apply seq_NoDup|apply in_seq; lia]. destruct (find (knotName head c) ps); [|discriminate]. intro V. injection V as <-. unfold f, knot, over. rewrite Z. destruct (Req_EM_T 0 0); [now destruct h|congruence].
Qed.
