(** C99: AddCPConjugate gives the parameters of the CP conjugate decays. *)
From Verif.Common Require Import Prelude.
From Coq Require Import Reals Lra.
From Coquelicot Require Import Hierarchy Complex.
From Verif.Conjugate Require Import Model Spec Proofs.
Local Open Scope nat_scope.

(** The parameters that were there stay as they are, and first; what is added has new names, each once; each added parameter is the conjugate of one that
    was there; and each conjugate is there in the end, unless a parameter of that name was. *)
Theorem C99_kept : forall w l l', AddCPConjugate w l = Ok l' -> exists new, l' = l ++ new /\
  (NoDup (names l) -> NoDup (names l')) /\
  (forall e', In e' new -> ~ In (fst e') (names l) /\ exists e, In e l /\ conjugate w e = Ok (Some e')) /\
  (forall n q n' s, In (n, q) l -> conjugate_name w n n' s -> In n' (names l')).
Proof.
  intros w l l' H. unfold AddCPConjugate in H. destruct (collect w l) as [tmp| | |] eqn:E; try discriminate. injection H as <-.
  destruct (insert_app tmp l) as (new & -> & A & B & D & F). exists new. split; [reflexivity|]. split; [exact B|]. split.
  - intros e' I. split; [now apply D|]. apply (collect_in _ _ _ E), A, I.
  - intros n q n' s I K. destruct (conjugate_by_name w n n' s q K) as (q' & G & _). exact (F _ (collect_all _ _ _ E _ _ I G)).
Qed.
Print Assumptions C99_kept.
(** Its value is that of the original times the factor, whatever the values of the parameters are. *)
Theorem C99_value : forall w l l' n q n' s, AddCPConjugate w l = Ok l' -> NoDup (names l) -> In (n, q) l -> conjugate_name w n n' s -> ~ In n' (names l) ->
  (forall e e', In e l -> conjugate w e = Ok (Some e') -> fst e' = n' -> e = (n, q)) ->
  exists q', lookup n' l' = Some q' /\ forall x, mean q' x = (IZR s * mean q x)%R.
Proof.
  intros w l l' n q n' s H ND I K N U. destruct (C99_kept _ _ _ H) as (new & El & ND' & Fr & Al). specialize (ND' ND).
  destruct (conjugate_by_name w n n' s q K) as (q' & G & M). exists q'. split; [|exact M]. apply lookup_in; [exact ND'|].
  pose proof (Al _ _ _ _ I K) as J. apply in_map_iff in J as ((m & p) & Em & J). cbn in Em. subst m.
  rewrite El in J. apply in_app_or in J as [J|J]; [destruct N; apply in_map_iff; exists (n', p); now split|].
  destruct (Fr _ J) as (_ & e & Ie & Ee). pose proof (U _ _ Ie Ee eq_refl) as ->. rewrite G in Ee. injection Ee as ->. rewrite El. apply in_or_app. now right.
Qed.
Print Assumptions C99_value.
(** The coupling of the conjugate decay is CP() times that of the decay, in both coordinates, for any value of the parameters. *)
Theorem C99_coupling : forall w l l' p d re im (cartesian : bool) (sf : R), AddCPConjugate w l = Ok l' -> NoDup (names l) -> piece p -> decay_of w p = Ok d ->
  ~ In (head d) (forbidden w) -> distinct d = true -> coordinates w = (if cartesian then S_ "cartesian" else S_ "polar") ->
  In (p ++ S_ "_Re", re) l -> In (p ++ S_ "_Im", im) l -> ~ In (conjUnique d ++ S_ "_Re") (names l) -> ~ In (conjUnique d ++ S_ "_Im") (names l) ->
  (forall e e', In e l -> conjugate w e = Ok (Some e') -> (fst e' = conjUnique d ++ S_ "_Re" -> e = (p ++ S_ "_Re", re)) /\ (fst e' = conjUnique d ++ S_ "_Im" -> e = (p ++ S_ "_Im", im))) ->
  exists re' im', lookup (conjUnique d ++ S_ "_Re") l' = Some re' /\ lookup (conjUnique d ++ S_ "_Im") l' = Some im' /\
    forall x, coupling cartesian sf re' im' x = (RtoC (IZR (CP d)) * coupling cartesian sf re im x)%C.
Proof.
  intros w l l' p d re im cart sf H ND Hp Hd Hf Hs Hc Ir Ii Nr Ni U.
  assert (Kr : conjugate_name w (p ++ S_ "_Re") (conjUnique d ++ S_ "_Re") (CP d)) by (apply of_real; try assumption; destruct cart; auto).
  destruct (C99_value _ _ _ _ _ _ _ H ND Ir Kr Nr (fun e e' I E => proj1 (U e e' I E))) as (re' & Lr & Mr). exists re'.
  destruct cart.
  - assert (Ki : conjugate_name w (p ++ S_ "_Im") (conjUnique d ++ S_ "_Im") (CP d)) by (now apply of_imaginary).
    destruct (C99_value _ _ _ _ _ _ _ H ND Ii Ki Ni (fun e e' I E => proj2 (U e e' I E))) as (im' & Li & Mi). exists im'. split; [exact Lr|]. split; [exact Li|].
    intro x. unfold coupling. rewrite Mr, Mi, !RtoC_mult. ring.
  - assert (Ki : conjugate_name w (p ++ S_ "_Im") (conjUnique d ++ S_ "_Im") 1) by (now apply of_phase).
    destruct (C99_value _ _ _ _ _ _ _ H ND Ii Ki Ni (fun e e' I E => proj2 (U e e' I E))) as (im' & Li & Mi). exists im'. split; [exact Lr|]. split; [exact Li|].
    intro x. unfold coupling. rewrite Mr, Mi, !RtoC_mult. rewrite Rmult_1_l. ring.
Qed.
Print Assumptions C99_coupling.
(** If the conjugate of each conjugate has the name it came from, a second call adds nothing. *)
Theorem C99_again : forall w l l', AddCPConjugate w l = Ok l' ->
  (forall e e', In e l -> conjugate w e = Ok (Some e') -> conjugate w e' = Ok None \/ exists q, conjugate w e' = Ok (Some (fst e, q))) ->
  AddCPConjugate w l' = Ok l'.
Proof.
  intros w l l' H K. pose proof H as H0. unfold AddCPConjugate in H. destruct (collect w l) as [tmp| | |] eqn:E; try discriminate. injection H as <-.
  destruct (insert_app tmp l) as (new & El & A & B & D & F). rewrite El in *.
  assert (Q : forall e, In e (l ++ new) -> exists o, conjugate w e = Ok o /\ match o with Some e' => In (fst e') (names (l ++ new)) | None => True end).
  { intros e I. apply in_app_or in I as [I|I].
    - assert (X : exists o, conjugate w e = Ok o).
      { clear - E I. revert tmp E. induction l as [|e0 l IH]; intros tmp E; [destruct I|]. cbn [collect] in E. destruct (conjugate w e0) as [o| | |] eqn:G; try discriminate.
        cbn [bind] in E. destruct (collect w l) as [t| | |]; try discriminate. destruct I as [<-|I]; [eauto|]. eapply IH; [exact I|reflexivity]. }
      destruct X as (o & X). exists o. split; [exact X|]. destruct o as [e'|]; [|exact Logic.I]. exact (F _ (collect_all _ _ _ E _ _ I X)).
    - destruct (collect_in _ _ _ E _ (A _ I)) as (e0 & I0 & E0). destruct (K _ _ I0 E0) as [X|(q & X)]; (eexists; split; [exact X|]); [exact Logic.I|].
      cbn [fst]. unfold names. rewrite map_app. apply in_or_app. left. now apply in_map. }
  unfold AddCPConjugate. destruct (collect_ok w (l ++ new)) as (t & T).
  { apply Forall_forall. intros e I. destruct (Q e I) as (o & X & _). eauto. }
  rewrite T. cbn [bind]. f_equal. apply insert_nothing. intros e I. destruct (collect_in _ _ _ T _ I) as (e0 & I0 & E0).
  destruct (Q _ I0) as (o & X & Y). rewrite E0 in X. injection X as <-. exact Y.
Qed.
Print Assumptions C99_again.

(** A world with D0 -> rho(770)0 pi0, which is odd under CP(), and its particles. *)
Definition d0 := S_ "D0{rho(770)0,pi0}".
Definition dbar := S_ "Dbar0{rho(770)0,pi0}".
Definition table (s : str) : res decay :=
  if str_eqb s d0 then Ok (Decay (S_ "D0") dbar dbar true (-1)%Z)
  else if str_eqb s dbar then Ok (Decay (S_ "Dbar0") d0 d0 true (-1)%Z) else UB.
Definition antis (s : str) : option str :=
  if str_eqb s (S_ "D0") then Some (S_ "Dbar0") else if str_eqb s (S_ "Dbar0") then Some (S_ "D0") else if str_eqb s (S_ "rho(770)0") then Some (S_ "rho(770)0") else None.
Definition ours (c : str) : world := World antis (fun s => str_eqb s d0 || str_eqb s dbar) table [] c.
Definition plainly (l : list string) : list entry := map (fun n => (S_ (snd n), Par (fst n))) (combine (seq 0 (List.length l)) l).
Definition both := plainly ("D0{rho(770)0,pi0}_Re" :: "D0{rho(770)0,pi0}_Im" :: "rho(770)0_mass" :: "D0::mass" :: nil)%string.
Example conjugate_meets : exists l', AddCPConjugate (ours (S_ "polar")) both = Ok l' /\ NoDup (names both) /\ piece d0 /\
  map fst l' = map S_ ("D0{rho(770)0,pi0}_Re" :: "D0{rho(770)0,pi0}_Im" :: "rho(770)0_mass" :: "D0::mass" :: "Dbar0{rho(770)0,pi0}_Re" :: "Dbar0{rho(770)0,pi0}_Im" :: "Dbar0::mass" :: nil)%string /\
  AddCPConjugate (ours (S_ "polar")) l' = Ok l'.
Proof.
  eexists. split; [vm_compute; reflexivity|]. split.
  - repeat constructor; cbn; intuition discriminate.
  - split; [|split; vm_compute; reflexivity]. repeat split; try easy; cbn; intuition discriminate.
Qed.

(** A parameter whose name is none of these gives a parameter with an empty name. *)
Theorem C99_unnamed_refuted : exists w l l', ~ In [] (names l) /\ AddCPConjugate w l = Ok l' /\ In [] (names l').
Proof. exists (ours (S_ "polar")), (plainly ("lumi" :: nil)%string). eexists. split; [|split; [vm_compute; reflexivity|]]; cbn; intuition discriminate. Qed.
Print Assumptions C99_unnamed_refuted.
(** With such a parameter in the set, the next call reads the last of no tokens. *)
Theorem C99_twice_refuted : exists w l l', NoDup (names l) /\ AddCPConjugate w l = Ok l' /\ AddCPConjugate w l' = UB.
Proof.
  exists (ours (S_ "polar")), (plainly ("lumi" :: nil)%string). eexists. split; [|split; vm_compute; reflexivity]. repeat constructor. cbn. tauto.
Qed.
Print Assumptions C99_twice_refuted.
(** A coupling with a prefix, as AmplitudeRules reads it (prefix_decay_Re), is taken for a decay of the prefix, whose properties are not known. *)
Theorem C99_prefix_refuted : exists w l, decay_of w d0 <> UB /\ names l = map S_ ("A_D0{rho(770)0,pi0}_Re" :: "A_D0{rho(770)0,pi0}_Im" :: nil)%string /\ AddCPConjugate w l = UB.
Proof. exists (ours (S_ "polar")), (plainly ("A_D0{rho(770)0,pi0}_Re" :: "A_D0{rho(770)0,pi0}_Im" :: nil)%string). split; [vm_compute; discriminate|]. split; vm_compute; reflexivity. Qed.
Print Assumptions C99_prefix_refuted.
(** A coupling given by one complex expression loses its imaginary part: the conjugate of i is 0. *)
Theorem C99_complex_refuted : exists w l l' q q' x, lookup d0 l = Some q /\ AddCPConjugate w l = Ok l' /\ lookup dbar l' = Some q' /\
  coupling_expression q x = Ci /\ coupling_expression q' x = RtoC 0.
Proof.
  exists (ours (S_ "polar")), ((d0, Given (fun _ => Ci)) :: nil). eexists. exists (Given (fun _ => Ci)), (Conj (Given (fun _ => Ci))), (fun _ => 0%R).
  split; [vm_compute; reflexivity|]. split; [unfold AddCPConjugate; vm_compute; reflexivity|]. split; [vm_compute; reflexivity|]. split; [reflexivity|].
  unfold coupling_expression. cbn [getVal]. apply injective_projections; cbn; lra.
Qed.
Print Assumptions C99_complex_refuted.
(** Given by an expression, a coupling of a decay that is odd under CP keeps its sign; given by real and imaginary part it changes it. *)
Theorem C99_sign_refuted : exists w l1 l1' l2 l2' q q1 re im re1 im1 x,
  AddCPConjugate w l1 = Ok l1' /\ AddCPConjugate w l2 = Ok l2' /\ lookup d0 l1 = Some q /\ lookup dbar l1' = Some q1 /\
  lookup (d0 ++ S_ "_Re") l2 = Some re /\ lookup (d0 ++ S_ "_Im") l2 = Some im /\ lookup (dbar ++ S_ "_Re") l2' = Some re1 /\ lookup (dbar ++ S_ "_Im") l2' = Some im1 /\
  coupling_expression q x = coupling true 1 re im x /\ coupling_expression q1 x <> coupling true 1 re1 im1 x.
Proof.
  exists (ours (S_ "cartesian")), ((d0, Given (fun x => RtoC (x 0))) :: nil). eexists. exists (plainly ("D0{rho(770)0,pi0}_Re" :: "D0{rho(770)0,pi0}_Im" :: nil)%string).
  eexists. do 6 eexists. exists (fun k => if Nat.eqb k 0 then 1%R else 0%R).
  split; [unfold AddCPConjugate; vm_compute; reflexivity|]. split; [vm_compute; reflexivity|].
  do 6 (split; [vm_compute; reflexivity|]). split.
  - unfold coupling_expression, coupling, mean. cbn. apply injective_projections; cbn; lra.
  - unfold coupling_expression, coupling, mean. intro H. apply (f_equal Re) in H. cbn in H. lra.
Qed.
Print Assumptions C99_sign_refuted.
