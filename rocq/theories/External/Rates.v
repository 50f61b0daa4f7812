From Verif.Common Require Import Prelude.
From Coq Require Import Reals ZArith Lra Field FunctionalExtensionality.
From Coquelicot Require Import Hierarchy Complex.
From Verif.Vertex Require Import Model Spec Algebra.
From Verif.External Require Import Model Spec Proofs Weyl Spinors.
Local Open Scope R_scope.

Lemma not_aligned p : tiny <= length3 p + pz p -> ~ Rabs (pP p + pz p) < tiny.
Proof. intros H. rewrite pP_len. unfold tiny in *. rewrite Rabs_right; lra. Qed.
Lemma at_rest p : px p = 0 -> py p = 0 -> pz p = 0 -> pP p = 0.
Proof. intros X Y Z. unfold pP. rewrite X, Y, Z. replace (0 * 0 + 0 * 0 + 0 * 0) with 0 by ring. apply sqrt_0. Qed.
Lemma xi_clear p : clear_of_minus_z p -> xi_ok p (pP p) (fst (xi p 0)) (snd (xi p 0)) (fst (xi p 1)) (snd (xi p 1)).
Proof.
  intros [A|(X & Y & Z)]. - now apply xi_generic, not_aligned.
  - pose proof (at_rest p X Y Z) as E. unfold xi, Ternary. destruct (aligned p) as [_|N].
    + cbn [fst snd]. rewrite E. now apply xi_rest.
    + exfalso. apply N. rewrite E, Z. rewrite Rabs_right; unfold tiny; lra.
Qed.
Lemma ws_fun id m p : id <> 0%Z -> ws id m p = half_states id m (pP p) p (fst (xi p 0)) (snd (xi p 0)) (fst (xi p 1)) (snd (xi p 1)).
Proof. intro H. apply functional_extensionality. intro s. now apply ws_half. Qed.
Lemma weyl_spinors p m id : on_shell p m -> clear_of_minus_z p -> id <> 0%Z -> spinor_states (Z.sgn id) p m (ws id m p).
Proof. intros H C I. rewrite ws_fun by exact I. apply half_spinors; [exact H|apply pP_sq|now apply xi_clear|exact I]. Qed.
Ltac with_coef N k X := first [apply (lin _ _ _ _ (RtoC N)%C X); ring | apply (lin _ _ _ _ (RtoC N * RtoC k)%C X); ring | apply (lin _ _ _ _ (RtoC N * Ci)%C X); ring | apply (lin _ _ _ _ (RtoC N * Ci * RtoC k)%C X); ring].
Lemma weyl_spin_along p m id s : clear_of_minus_z p -> id <> 0%Z -> In s (1 :: -1 :: nil)%Z -> helicity_spinor p (IZR s) (ws id m p s).
Proof.
  intros C I Is. rewrite ws_fun by exact I. destruct (xi_clear p C) as [_ _ _ _ _ _ _ _ X9 X10 X11 X12 _ _ _ _ _ _].
  unfold helicity_spinor, spin_along. change (length3 p) with (pP p). unfold half_states. set (N := sqrt _). set (k := _ / _). clearbody N k.
  fold (zz p) (zb p). set (a := fst (xi p 0)) in *. set (b := snd (xi p 0)) in *. set (c := fst (xi p 1)) in *. set (d := snd (xi p 1)) in *. clearbody a b c d.
  set (P := RtoC (pP p)) in *. set (w := zb p) in *. set (u := zz p) in *. set (z := RtoC (pz p)) in *.
  assert (E : RtoC (IZR s * pP p) = (RtoC (IZR s) * P)%C) by apply RtoC_mult. rewrite E. clear E. clearbody P w u z.
  destruct (id >? 0)%Z; states; cbn [Z.eqb Pos.eqb fst snd]; intros []; unfold four; rewrite ?RtoC_m1; with_coef N k X9 || with_coef N k X10 || with_coef N k X11 || with_coef N k X12.
Qed.
(** The charge conjugate of the state s of the particle is the state -s of the antiparticle. *)
Lemma ds_conj p m n s : (0 < n)%Z -> In s (1 :: -1 :: nil)%Z -> forall a, conjugate_spinor (ds n m p s) a = (RtoC (IZR s) * ds (- n) m p (- s) a)%C.
Proof.
  intros Hn Is. destruct n as [|n|n]; try lia. clear Hn. destruct p as [x y z e]. unfold ds, dirac_spinor, conjugate_spinor, zz, zb, cbar. cbn [px py pz en].
  set (N := sqrt _). set (k := _ / _). clearbody N k. pose proof ii as Hi.
  states; cbn [Z.gtb Z.ltb Z.compare Z.opp Z.eqb Pos.eqb andb]; intros []; gammas; push; rewrite ?RtoC_m1; ring [Hi].
Qed.
Lemma ws_conj p m n s : clear_of_minus_z p -> (0 < n)%Z -> In s (1 :: -1 :: nil)%Z -> forall a, conjugate_spinor (ws n m p s) a = (- RtoC (IZR s) * Ci * ws (- n) m p (- s) a)%C.
Proof.
  intros C Hn Is. rewrite !ws_fun by lia. destruct (xi_clear p C) as [_ _ _ _ _ _ _ _ _ _ _ _ _ _ _ _ Y5 Y6].
  destruct n as [|n|n]; try lia. clear Hn. unfold half_states, conjugate_spinor, cbar.
  set (a := fst (xi p 0)) in *. set (b := snd (xi p 0)) in *. set (c := fst (xi p 1)) in *. set (d := snd (xi p 1)) in *. clearbody a b c d. subst c d.
  unfold Rdiv. set (N := sqrt _). set (P := pP p). set (k := / _). clearbody N P k. pose proof ii as Hi.
  assert (cc : forall q, Cconj (Cconj q) = q) by (intro q; destruct q; unfold Cconj; cbn; f_equal; ring).
  states; cbn [Z.gtb Z.ltb Z.compare Z.opp Z.eqb Pos.eqb fst snd]; intros []; gammas; push; rewrite ?cc, ?RtoC_m1; ring [Hi].
Qed.

(** ** Rates *)
Lemma mod_sq a : RtoC (Cmod a * Cmod a) = (a * Cconj a)%C.
Proof.
  destruct a as [x y]. unfold Cmod. cbn [fst snd]. rewrite sqrt_sqrt. - unfold Cmult, Cconj, RtoC. cbn. f_equal; ring.
  - pose proof (Rle_0_sqr x); pose proof (Rle_0_sqr y). unfold Rsqr in *. cbn. lra.
Qed.
Definition rate_spinor (Pi : ten) (st : vec) : C := sum4 (fun a => sum4 (fun b => (Pi a b * (Gamma I3 a a * Cconj (st a)) * st b)%C)).
Lemma bar_entry v a : Bar v a = (Cconj (v a) * Gamma I3 a a)%C.
Proof. unfold Bar, sum4, Gamma, square. destruct a; cbn [nth]; ring. Qed.
Lemma g_real a : Cconj (Gamma I3 a a) = Gamma I3 a a.
Proof. unfold Gamma, square. destruct a; cbn [nth]; push; ring. Qed.
Lemma cc q : Cconj (Cconj q) = q. Proof. destruct q; unfold Cconj; cbn; f_equal; ring. Qed.
Lemma one_spinor u st : RtoC (Cmod (sum4 (fun a => (Bar u a * st a)%C)) * Cmod (sum4 (fun a => (Bar u a * st a)%C))) = rate_spinor (fun a b => (u a * Bar u b)%C) st.
Proof.
  rewrite mod_sq. unfold rate_spinor, sum4. rewrite !Cplus_conj, !Cmult_conj, !bar_entry, !Cmult_conj, !g_real, !cc. ring.
Qed.
Lemma rate_add A B st : (rate_spinor A st + rate_spinor B st)%C = rate_spinor (fun a b => (A a b + B a b)%C) st.
Proof. unfold rate_spinor, sum4. ring. Qed.
Lemma spinor_total e p m u st : spinor_states e p m u ->
  exists t, total_rate (fun s => Some (sum4 (fun a => (Bar (u s) a * st a)%C))) (1 :: -1 :: nil)%Z = Some t /\
    RtoC t = rate_spinor (fun a b => (RtoC (1 / (2 * m)) * (slash (P4 p) a b + RtoC (IZR e * m) * Identity a b))%C) st.
Proof.
  intros (_ & _ & Cm). eexists. split; [reflexivity|]. rewrite !RtoC_plus, !one_spinor, Cplus_0_r, rate_add. unfold rate_spinor, sum4. rewrite !Cm. reflexivity.
Qed.
Definition rate_vector (Pi : ten) (st : vec) : C := sum4 (fun i => sum4 (fun j => (sgn i * sgn j * Pi i j * Cconj (st i) * st j)%C)).
Lemma s_real a : Cconj (sgn a) = sgn a. Proof. destruct a; unfold sgn; push; ring. Qed.
Lemma one_vector v st : RtoC (Cmod (dot (cbar v) st) * Cmod (dot (cbar v) st)) = rate_vector (fun i j => (v i * Cconj (v j))%C) st.
Proof. rewrite mod_sq. unfold dot, rate_vector, cbar, sum4. rewrite !Cplus_conj, !Cmult_conj, !s_real, !cc. ring. Qed.
Lemma vector_total p m e st : vector_states p m e ->
  exists t, total_rate (fun s => Some (dot (cbar (e s)) st)) (1 :: 0 :: -1 :: nil)%Z = Some t /\
    RtoC t = rate_vector (fun i j => (- metric i j + P4 p i * P4 p j * RtoC (1 / (m * m)))%C) st.
Proof.
  intros (_ & _ & Cm). eexists. split; [reflexivity|]. rewrite !RtoC_plus, !one_vector. unfold rate_vector, sum4. rewrite <- !Cm. ring.
Qed.
Lemma factor_spinor_D id m p st s : id <> 0%Z -> In s (1 :: -1 :: nil)%Z -> spinFactor Dirac 1 id m p st s = Some (sum4 (fun a => (Bar (ds id m p s) a * st a)%C)).
Proof. intros H I. destruct id; [congruence| |]; states; reflexivity. Qed.
Lemma factor_spinor_W id m p st s : id <> 0%Z -> In s (1 :: -1 :: nil)%Z -> spinFactor Weyl 1 id m p st s = Some (sum4 (fun a => (Bar (ws id m p s) a * st a)%C)).
Proof. intros H I. destruct id; [congruence| |]; states; reflexivity. Qed.
Lemma factor_vector_D id m p st s : In s (1 :: 0 :: -1 :: nil)%Z -> spinFactor Dirac 2 id m p st s = Some (dot (cbar (dv m p s)) st).
Proof. intros I. states; reflexivity. Qed.
Lemma factor_vector_W id m p st s : In s (1 :: 0 :: -1 :: nil)%Z -> spinFactor Weyl 2 id m p st s = Some (dot (cbar (wv m p s)) st).
Proof. intros I. states; reflexivity. Qed.
Lemma total_ext f g l : (forall s, In s l -> f s = g s) -> total_rate f l = total_rate g l.
Proof. induction l as [|s l IH]; intro H; [reflexivity|]. cbn [total_rate]. rewrite (H s) by now left. rewrite IH; [reflexivity|]. intros t I. apply H. now right. Qed.
Lemma RtoC_inj_eq a b : RtoC a = RtoC b -> a = b. Proof. intro H. now apply (f_equal fst) in H. Qed.
Lemma basis_spinor p m id st : on_shell p m -> clear_of_minus_z p -> id <> 0%Z ->
  exists t, total_rate (spinFactor Dirac 1 id m p st) (1 :: -1 :: nil)%Z = Some t /\ total_rate (spinFactor Weyl 1 id m p st) (1 :: -1 :: nil)%Z = Some t.
Proof.
  intros H C I. destruct (spinor_total _ _ _ _ st (dirac_spinors_ex p m id H I)) as (t & E & V). destruct (spinor_total _ _ _ _ st (weyl_spinors p m id H C I)) as (t' & E' & V').
  exists t. rewrite (total_ext _ _ _ (fun s J => factor_spinor_D id m p st s I J)), (total_ext _ _ _ (fun s J => factor_spinor_W id m p st s I J)), E, E'. split; [reflexivity|].
  f_equal. apply RtoC_inj_eq. now rewrite V, V'.
Qed.
Lemma weyl_vectors p m : on_shell p m -> clear_of_axis p -> vector_states p m (wv m p).
Proof. intros H [G|(X & Y & Z)]. - now apply weyl_vectors_generic. - now apply weyl_vectors_axis. Qed.
Lemma basis_vector p m id st : on_shell p m -> clear_of_axis p ->
  exists t, total_rate (spinFactor Dirac 2 id m p st) (1 :: 0 :: -1 :: nil)%Z = Some t /\ total_rate (spinFactor Weyl 2 id m p st) (1 :: 0 :: -1 :: nil)%Z = Some t.
Proof.
  intros H C. destruct (vector_total _ _ _ st (dirac_vectors p m H)) as (t & E & V). destruct (vector_total _ _ _ st (weyl_vectors p m H C)) as (t' & E' & V').
  exists t. rewrite (total_ext _ _ _ (fun s J => factor_vector_D id m p st s J)), (total_ext _ _ _ (fun s J => factor_vector_W id m p st s J)), E, E'. split; [reflexivity|].
  f_equal. apply RtoC_inj_eq. now rewrite V, V'.
Qed.
