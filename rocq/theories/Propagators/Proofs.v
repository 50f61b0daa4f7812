From Verif.Common Require Import Prelude.
From Coq Require Import Reals.
From Coquelicot Require Import Hierarchy Complex.
From Verif.Utilities Require Import Model Proofs.
From Verif.Descriptor Require Model Proofs.
From Verif.Propagators Require Import Model Spec.
Local Open Scope nat_scope.
Lemma contains_part w x : contains w x = true <-> part w x.
Proof.
  unfold contains. destruct (find0 w x) as [n|] eqn:E; split; try discriminate; try reflexivity.
  - intros _. apply find0_Some in E as (_ & (q & E) & _). exists (firstn n x), q. rewrite <- E. symmetry. apply firstn_skipn.
  - intros (a & b & ->). exfalso. apply (find0_None _ _ E (List.length a) b). rewrite skipn_app, skipn_all, Nat.sub_diag. reflexivity.
Qed.
Lemma contains_not w x : contains w x = false <-> ~ part w x.
Proof. rewrite <- contains_part. destruct (contains w x); split; congruence. Qed.
Lemma own_ok m p c : own m p = Ok c <-> contributes m p c.
Proof.
  destruct p as [n x s L ds]. unfold own, contributes. cbn [daughters shape]. destruct ds as [|d [|e [|f ds]]]; cbn [List.length].
  - split; [intro H; injection H as <-; left; split; [constructor|reflexivity]|]. intros [[_ ->]|(y & H & _)]; [reflexivity|inversion H].
  - destruct (contains (S_ "BW") x || contains (S_ "FormFactor") x)%bool eqn:B.
    + apply orb_true_iff in B. rewrite !contains_part in B. split; [intro H; injection H as <-; left; split; [constructor; exact B|reflexivity]|].
      intros [[_ ->]|(y & H & _)]; [reflexivity|]. inversion H; subst. tauto.
    + apply orb_false_iff in B. rewrite !contains_not in B. split; [intro H; right; exists x; split; [constructor; tauto|exact H]|].
      intros [[H _]|(y & H & G)]; inversion H; subst; [tauto|exact G].
  - split; [intro H; right; exists x; split; [constructor|exact H]|]. intros [[H _]|(y & H & G)]; inversion H; subst. exact G.
  - destruct (str_eqb x (S_ "BW")) eqn:B.
    + apply str_eqb_eq in B. subst x. split; [intro H; right; exists (S_ "SBW"); split; [constructor|exact H]|]. intros [[H _]|(y & H & G)]; inversion H; subst; [exact G|contradiction].
    + apply str_eqb_neq in B. split; [intro H; right; exists x; split; [constructor; exact B|exact H]|]. intros [[H _]|(y & H & G)]; inversion H; subst; [contradiction|exact G].
Qed.
Lemma product_app l l' : product (l ++ l') = (product l * product l')%C.
Proof. induction l as [|x l IH]; cbn [product app]; [ring|]. rewrite IH. ring. Qed.
Fixpoint each (m : registry) (ds : list particle) (total : C) : res C :=
  match ds with [] => Ok total | d :: r => bind (propagator m d) (fun x => each m r (total * x)%C) end.
Lemma propagator_eq m n x s L ds : propagator m (Particle n x s L ds) = bind (own m (Particle n x s L ds)) (fun prop => each m ds (RtoC 1 * prop)%C).
Proof.
  cbn [propagator]. destruct (own m (Particle n x s L ds)) as [y| | |]; cbn [bind]; try reflexivity. generalize (RtoC 1 * y)%C.
  induction ds as [|d ds IH]; intro t; cbn [each]; [reflexivity|]. destruct (propagator m d); cbn [bind]; try reflexivity. apply IH.
Qed.
Lemma particle_induction (P : particle -> Prop) : (forall n x s L ds, Forall P ds -> P (Particle n x s L ds)) -> forall p, P p.
Proof.
  intros H. fix go 1. intros [n x s L ds]. apply H. induction ds as [|d ds IH]; constructor; [apply go|exact IH].
Qed.
Lemma each_ok m ds : Forall (fun p => forall c, propagator m p = Ok c <-> exists cs, Forall2 (contributes m) (particles p) cs /\ c = product cs) ds ->
  forall total c, each m ds total = Ok c <-> exists cs, Forall2 (contributes m) (flat_map particles ds) cs /\ c = (total * product cs)%C.
Proof.
  induction 1 as [|d ds Hd _ IH]; intros total c; cbn [each flat_map].
  - split; [intro H; injection H as <-; exists nil; split; [constructor|cbn; ring]|]. intros (cs & F & ->). inversion F; subst. cbn. f_equal. ring.
  - split.
    + intro H. destruct (propagator m d) as [y| | |] eqn:E; try discriminate H. cbn [bind] in H. apply (IH (total * y)%C c) in H as (cs & F & ->).
      destruct (proj1 (Hd y) eq_refl) as (cs0 & F0 & ->). exists (cs0 ++ cs). split; [now apply Forall2_app|]. rewrite product_app. ring.
    + intros (cs & F & ->). apply Forall2_app_inv_l in F as (c1 & c2 & F1 & F2 & ->). rewrite (proj2 (Hd (product c1))) by (exists c1; split; [exact F1|reflexivity]).
      cbn [bind]. apply IH. exists c2. split; [exact F2|]. rewrite product_app. ring.
Qed.
Lemma propagator_ok m : forall p c, propagator m p = Ok c <-> exists cs, Forall2 (contributes m) (particles p) cs /\ c = product cs.
Proof.
  apply (particle_induction (fun p => forall c, propagator m p = Ok c <-> exists cs, Forall2 (contributes m) (particles p) cs /\ c = product cs)).
  intros n x s L ds IH c. rewrite propagator_eq. cbn [particles]. pose proof (each_ok m ds IH) as HE. split.
  - intro H. destruct (own m (Particle n x s L ds)) as [y| | |] eqn:E; try discriminate H. cbn [bind] in H. apply HE in H as (cs & F & ->). apply own_ok in E.
    exists (y :: cs). split; [constructor; assumption|]. cbn [product]. ring.
  - intros (cs & F & ->). inversion F as [|? y ? cs' G F']; subst. apply own_ok in G. rewrite G. cbn [bind]. apply HE. exists cs'. split; [exact F'|]. cbn [product]. ring.
Qed.
(** ** Names *)
Lemma written_parts k mod_ x : written k mod_ x -> base x = k /\ modifier x = mod_.
Proof.
  intros [N [[-> ->] | ->]]; unfold base, modifier.
  - change (S_ ".") with ("."%char :: nil). rewrite (proj2 (Descriptor.Proofs.find0_char "." k) N). split; reflexivity.
  - change (S_ "." ++ mod_) with ("."%char :: mod_). change (S_ ".") with ("."%char :: nil). rewrite (Descriptor.Proofs.find0_after "." k mod_ N). cbn [upto]. split.
    + rewrite firstn_app, firstn_all, Nat.sub_diag. apply app_nil_r.
    + change (k ++ "."%char :: mod_) with (k ++ (("."%char :: nil) ++ mod_)). rewrite app_assoc.
      replace (S (List.length k)) with (List.length (k ++ "."%char :: nil)) by (rewrite app_length; cbn; lia). rewrite skipn_app, skipn_all, Nat.sub_diag. reflexivity.
Qed.
Lemma modifier_shorter x : modifier x <> [] -> List.length (modifier x) < List.length x.
Proof. unfold modifier. destruct (find0 _ x) as [n|]; [|intro H; now contradiction H]. intro H. rewrite skipn_length. destruct x; [now rewrite skipn_nil in H|cbn; lia]. Qed.
Lemma factory_fuel m : modest m -> forall n n' x p, List.length x < n -> List.length x < n' -> factory n m x p = factory n' m x p.
Proof.
  intro HM. induction n as [|n IH]; intros [|n'] x p H H'; try lia. cbn [factory]. destruct (lookup m (base x)) as [[f|f]|] eqn:E; try reflexivity.
  apply (HM _ _ E). intro N. pose proof (modifier_shorter x N). apply IH; lia.
Qed.
Lemma lookup_known m k : (exists e, lookup m k = Some e) <-> In k (map fst m).
Proof.
  unfold lookup. induction m as [|[k' e] m IH]; cbn [find map In fst]; [split; [intros [e H]; discriminate|intros []]|].
  destruct (str_eqb k' k) eqn:B.
  - apply str_eqb_eq in B. split; [now left|]. intros _. now exists e.
  - apply str_eqb_neq in B. rewrite IH. tauto.
Qed.
Lemma known m x : isLineshape m x = true <-> exists e, lookup m (base x) = Some e.
Proof. unfold isLineshape. rewrite Descriptor.Proofs.isLineshape_spec, lookup_known. reflexivity. Qed.
