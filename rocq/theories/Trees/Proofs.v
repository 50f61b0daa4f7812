From Verif.Common Require Import Prelude Writes.
From Coq Require Import Reals Permutation Lra Lia.
From Verif.Trees Require Import Model Spec.
Local Open Scope nat_scope.
Lemma mem_iff x l : mem x l = true <-> In x l.
Proof.
  unfold mem. rewrite existsb_exists. split.
  - intros (y & H & E). apply str_eqb_eq in E. subst. exact H.
  - intro H. exists x. split; [exact H|apply str_eqb_refl].
Qed.
Lemma set_ok {A} (n : nat) (x : A) l : n < List.length l -> exists l', set_at n x l = Some l' /\
  List.length l' = List.length l /\ nth_error l' n = Some x /\ forall k, k <> n -> nth_error l' k = nth_error l k.
Proof.
  intro H. destruct (set_at_Some n x l H) as (l' & E & L & G). exists l'. repeat split; try assumption; [rewrite G, Nat.eqb_refl; reflexivity|].
  intros k Hk. rewrite G. apply Nat.eqb_neq in Hk. rewrite Hk. reflexivity.
Qed.
Definition as_val (p : str * nat) : branch := (fst p, Val (snd p)).
Lemma setValues_ok t size l : forall bs, (forall x k, In (x, k) l -> In x (cols t) /\ k < size) -> setValues t size l bs = Ok (bs ++ map as_val l).
Proof.
  induction l as [|[x k] l IH]; intros bs H; cbn [setValues map].
  - rewrite app_nil_r. reflexivity.
  - destruct (H x k (or_introl eq_refl)) as [H1 H2]. apply Nat.ltb_lt in H2. rewrite H2. rewrite IH by (intros; apply H; right; assumption).
    unfold setBranch. cbn [fst]. apply mem_iff in H1. rewrite H1. rewrite <- app_assoc. reflexivity.
Qed.
Lemma existsb_name (r : list branch) x : ~ In x (map fst r) -> existsb (fun b => str_eqb (fst b) x) r = false.
Proof.
  intro H. destruct (existsb (fun b => str_eqb (fst b) x) r) eqn:E; [|reflexivity]. apply existsb_exists in E. destruct E as (b & I & E). apply str_eqb_eq in E. subst. exfalso. apply H.
  apply in_map. exact I.
Qed.
(** What a transfer does to an event. *)
Definition filled (bs : list branch) (row : str -> R) (e e' : event) : Prop :=
  List.length (vals e') = List.length (vals e) /\
  (forall x k, In (x, Val k) bs -> nth_error (vals e') k = Some (row x)) /\
  (forall k, ~ In (Val k) (map snd bs) -> nth_error (vals e') k = nth_error (vals e) k) /\
  (forall x, In (x, Wgt) bs -> weight e' = row x) /\ (~ In Wgt (map snd bs) -> weight e' = weight e) /\
  (forall x, In (x, Gen) bs -> genPdf e' = row x) /\ (~ In Gen (map snd bs) -> genPdf e' = genPdf e).
Lemma transfer_ok row bs : forall e, NoDup (map fst bs) -> NoDup (map snd bs) -> (forall x k, In (x, Val k) bs -> k < List.length (vals e)) ->
  exists e', transfer bs (Some row) e = Ok e' /\ filled bs row e e'.
Proof.
  induction bs as [|[x o] bs IH]; intros e N1 N2 L; cbn [transfer map fst snd] in *.
  - exists e. split; [reflexivity|]. repeat split; intros; try reflexivity; contradiction.
  - inversion N1; inversion N2; subst. rewrite existsb_name by assumption.
    assert (A : exists e1, assign o (row x) e = Ok e1 /\ filled [(x, o)] row e e1).
    { destruct o as [k| |]; cbn [assign].
      - destruct (set_ok k (row x) (vals e) (L x k (or_introl eq_refl))) as (l' & E & G). rewrite E. cbn [of_opt bind]. eexists. split; [reflexivity|].
        destruct G as (G0 & G1 & G2). unfold filled. cbn [vals weight genPdf map snd In]. repeat split; intros; try reflexivity.
        + exact G0.
        + destruct H as [H|[]]. injection H as <- <-. exact G1.
        + apply G2. intro C. apply H. left. congruence.
        + destruct H as [H|[]]; discriminate.
        + destruct H as [H|[]]; discriminate.
      - eexists. split; [reflexivity|]. unfold filled. cbn. repeat split; intros; try reflexivity.
        all: try (destruct H as [H|[]]; try discriminate; injection H as <-; reflexivity). exfalso; apply H; left; reflexivity.
      - eexists. split; [reflexivity|]. unfold filled. cbn. repeat split; intros; try reflexivity.
        all: try (destruct H as [H|[]]; try discriminate; injection H as <-; reflexivity). exfalso; apply H; left; reflexivity. }
    destruct A as (e1 & A & F). rewrite A. cbn [bind]. destruct F as (F0 & F1 & F2 & F3 & F4 & F5 & F6).
    destruct (IH e1) as (e2 & B & G); [assumption|assumption|intros; rewrite F0; eapply L; right; eassumption|].
    exists e2. split; [exact B|]. destruct G as (G0 & G1 & G2 & G3 & G4 & G5 & G6). cbn [map snd] in *. repeat split.
    + congruence.
    + intros y k [E|E]; [|apply G1; exact E]. injection E as -> ->. rewrite G2 by assumption. apply F1. left. reflexivity.
    + intros k H. rewrite G2, F2; [reflexivity| |]; intro C; apply H; cbn in *; tauto.
    + intros y [E|E]; [|apply G3; exact E]. injection E as -> ->. rewrite G4 by assumption. apply F3. left. reflexivity.
    + intro H. rewrite G4, F4; [reflexivity| |]; intro C; apply H; cbn in *; tauto.
    + intros y [E|E]; [|apply G5; exact E]. injection E as -> ->. rewrite G6 by assumption. apply F5. left. reflexivity.
    + intro H. rewrite G6, F6; [reflexivity| |]; intro C; apply H; cbn in *; tauto.
Qed.
Lemma scale_nth a n : forall l k, nth_error (scale a n l) k = option_map (fun x => if k <? n then (x * units a)%R else x) (nth_error l k).
Proof.
  induction n as [|n IH]; intros l k.
  - replace (scale a 0 l) with l by (destruct l; reflexivity). destruct (nth_error l k); reflexivity.
  - destruct l as [|x l]; cbn [scale]; [destruct k; reflexivity|]. destruct k as [|k]; [reflexivity|]. cbn [nth_error]. rewrite IH. reflexivity.
Qed.
Lemma scale_length a n : forall l, List.length (scale a n l) = List.length l.
Proof. induction n as [|n IH]; intros [|x l]; cbn [scale List.length]; try reflexivity. rewrite IH. reflexivity. Qed.
Lemma nth_ex {A} (l : list A) k : k < List.length l -> exists x, nth_error l k = Some x.
Proof. intro H. apply nth_error_Some in H. destruct (nth_error l k) eqn:E; [eexists; reflexivity|contradiction]. Qed.
Lemma energies_ok ms : forall k v, 4 * (k + List.length ms) <= List.length v ->
  exists v', energies k ms v = Ok v' /\ List.length v' = List.length v /\
    (forall j, (forall i, i < List.length ms -> j <> 4 * (k + i) + 3) -> nth_error v' j = nth_error v j) /\
    (forall i m, nth_error ms i = Some m -> exists x y z, nth_error v (4 * (k + i)) = Some x /\ nth_error v (4 * (k + i) + 1) = Some y /\
       nth_error v (4 * (k + i) + 2) = Some z /\ nth_error v' (4 * (k + i) + 3) = Some (sqrt (m * m + x * x + y * y + z * z))%R).
Proof.
  induction ms as [|m ms IH]; intros k v L; cbn [energies List.length] in *.
  - exists v. repeat split; intros; destruct i; discriminate.
  - destruct (nth_ex v (4 * k)) as (x & Ex); [lia|]. destruct (nth_ex v (4 * k + 1)) as (y & Ey); [lia|]. destruct (nth_ex v (4 * k + 2)) as (z & Ez); [lia|].
    rewrite Ex, Ey, Ez. cbn [of_opt bind]. destruct (set_ok (4 * k + 3) (sqrt (m * m + x * x + y * y + z * z))%R v) as (v1 & E1 & G0 & G1 & G2); [lia|].
    rewrite E1. cbn [of_opt bind]. destruct (IH (S k) v1) as (v2 & B & H0 & H1 & H2); [lia|]. exists v2. split; [exact B|]. split; [lia|]. split.
    + intros j Hj. rewrite H1; [apply G2; specialize (Hj 0); lia|]. intros i Hi. specialize (Hj (S i)). lia.
    + intros [|i] m' E; cbn [nth_error] in E.
      * injection E as <-. exists x, y, z. replace (4 * (k + 0)) with (4 * k) by lia. repeat split; try assumption. rewrite H1 by lia. exact G1.
      * destruct (H2 i m' E) as (x' & y' & z' & A1 & A2 & A3 & A4). exists x', y', z'. replace (k + S i) with (S k + i) by lia.
        rewrite <- !G2 by lia. repeat split; assumption.
Qed.
Section Loop.
  Variables (order : nat -> list R -> list R) (a : arguments) (t : tree) (el : list nat) (bs : list branch).
  Variables (sel : list (str -> R)) (Q : (str -> R) -> event -> Prop).
  Definition inv (e : event) : Prop := List.length (vals e) = size_of a /\ (~ In Wgt (map snd bs) -> weight e = 1%R) /\ (~ In Gen (map snd bs) -> genPdf e = 1%R).
  Definition full (row : str -> R) (e : event) : Prop := exists e0, inv e0 /\ filled bs row e0 e.
  Hypothesis N1 : NoDup (map fst bs).
  Hypothesis N2 : NoDup (map snd bs).
  Hypothesis B : forall x k, In (x, Val k) bs -> k < size_of a.
  Hypothesis Hsel : forall pos r s, nth_error sel pos = Some r -> getEntry t el bs pos s = bind (transfer bs (Some r) (snd s)) (fun e => Ok (Some r, e)).
  Hypothesis Hend : forall s, getEntry t el bs (List.length sel) s = match el with [] => bind (transfer bs (fst s) (snd s)) (fun e => Ok (fst s, e)) | _ => UB end.
  Hypothesis body_ok : forall pos row e, full row e -> exists e', body order a pos e = Ok e' /\ Q row e' /\ inv e'.
  Lemma entry_ok row e : inv e -> exists e', transfer bs (Some row) e = Ok e' /\ full row e'.
  Proof.
    intro I. destruct (transfer_ok row bs e N1 N2) as (e' & E & F).
    - intros x k H. destruct I as [I _]. rewrite I. eapply B. exact H.
    - exists e'. split; [exact E|]. exists e. split; assumption.
  Qed.
  Lemma walk_ok rest : forall row pos e, skipn pos sel = row :: rest -> full row e ->
    Forall2 Q (row :: rest) (fst (walk order a t el bs (S (List.length rest)) pos (Some row, e))) /\
    snd (walk order a t el bs (S (List.length rest)) pos (Some row, e)) = match el with [] => Ok tt | _ => UB end.
  Proof.
    induction rest as [|row' rest IH]; intros row pos e Hs F; cbn [walk snd fst]; destruct (body_ok pos row e F) as (e' & E & HQ & I); rewrite E; cbn [after fst snd].
    - assert (Hp : S pos = List.length sel).
      { assert (L := f_equal (@List.length _) Hs). rewrite skipn_length in L. cbn in L. lia. }
      rewrite Hp, Hend. cbn [fst snd]. destruct el.
      + destruct (entry_ok row e' I) as (e2 & E2 & _). rewrite E2. cbn. split; [constructor; [exact HQ|constructor]|reflexivity].
      + cbn. split; [constructor; [exact HQ|constructor]|reflexivity].
    - assert (Hs' : skipn (S pos) sel = row' :: rest).
      { clear - Hs. revert sel Hs. induction pos as [|p IHp]; intros [|z sel] Hs; cbn in *; try discriminate; [injection Hs as -> ->; reflexivity|]. apply IHp. exact Hs. }
      assert (Hn : nth_error sel (S pos) = Some row').
      { rewrite <- (firstn_skipn (S pos) sel), nth_error_app2; rewrite ?firstn_length; assert (L := f_equal (@List.length _) Hs'); rewrite skipn_length in L; cbn [List.length] in L; [|lia].
        rewrite Hs'. replace (S pos - Nat.min (S pos) (List.length sel)) with 0 by lia. reflexivity. }
      rewrite (Hsel _ _ _ Hn). cbn [snd]. destruct (entry_ok row' e' I) as (e2 & E2 & F2). rewrite E2. cbn [bind after].
      destruct (IH row' (S pos) e2 Hs' F2) as [I1 I2]. cbn [List.length]. split; [constructor; assumption|assumption].
  Qed.
  Lemma inv_blank : inv (blank a).
  Proof. unfold inv, blank. cbn. rewrite repeat_length. auto. Qed.
  Lemma run_ok : sel <> [] -> nEntries t el = List.length sel ->
    let r := after (getEntry t el bs 0 (None, blank a)) (walk order a t el bs (nEntries t el) 0) in
    Forall2 Q sel (fst r) /\ snd r = match el with [] => Ok tt | _ => UB end.
  Proof.
    intros H Hn. assert (Es : exists row rest, skipn 0 sel = row :: rest) by (destruct sel as [|row rest]; [contradiction|]; exists row, rest; reflexivity).
    destruct Es as (row & rest & Es). cbv zeta. assert (Es' : sel = row :: rest) by exact Es. rewrite (Hsel 0 row) by (rewrite Es'; reflexivity). cbn [snd].
    destruct (entry_ok row (blank a) inv_blank) as (e & E & F). rewrite E. cbn [bind after]. rewrite Hn.
    replace (List.length sel) with (S (List.length rest)) by (rewrite Es'; reflexivity).
    destruct (walk_ok rest row 0 e Es F) as [W1 W2]. split; [|exact W2]. rewrite Es' at 1. exact W1.
  Qed.
End Loop.
