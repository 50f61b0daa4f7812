From Coq Require Import Reals Permutation Sorted Lia Lra Bool.
From Coquelicot Require Import Complex.
From Verif.Common Require Import Prelude.
From Verif.Symmetrise Require Import Model Spec Proofs Sums.
Local Open Scope nat_scope.

(** ** C88 *)
(** A decay to the particles of an event type, in any order, gets each place of the event type once; identical particles get theirs in the
    order in which they are written. *)
Theorem C88_indices : forall names types, Permutation names types ->
  let ls := construct names types in
  map lname ls = names /\ placed types ls /\ (forall l, In l ls -> idx l = orig l) /\
  StronglySorted (fun a b => lname a = lname b -> orig a < orig b) ls.
Proof. exact construct_ok. Qed.
Print Assumptions C88_indices.
Example C88_indices_ex :
  map (fun l => (lname l, idx l)) (construct (map S_ ["pi+"; "K-"; "pi-"; "pi+"]%string) (map S_ ["K-"; "pi+"; "pi+"; "pi-"]%string)) =
    [(S_ "pi+", 1); (S_ "K-", 0); (S_ "pi-", 3); (S_ "pi+", 2)].
Proof. reflexivity. Qed.

(** The orderings are the rearrangements that only exchange identical particles, each once, in lexicographic order, the given one first. *)
Theorem C88_orderings : forall types ls, placed types ls ->
  (forall o, In o (identicalDaughterOrderings ls) <-> rearrangement types o) /\ StronglySorted before (identicalDaughterOrderings ls) /\
  NoDup (identicalDaughterOrderings ls) /\ exists r, identicalDaughterOrderings ls = seq 0 (List.length types) :: r.
Proof. intros types ls Hp. split; [intro o; now apply orderings_in|]. split; [now apply (orderings_sorted types)|]. split; [now apply (orderings_nodup types)|now apply orderings_head]. Qed.
Print Assumptions C88_orderings.
Example C88_orderings_ex : let types := map S_ ["K-"; "pi+"; "pi+"; "K-"]%string in
  placed types (construct types types) /\ identicalDaughterOrderings (construct types types) = [[0; 1; 2; 3]; [0; 2; 1; 3]; [3; 1; 2; 0]; [3; 2; 1; 0]].
Proof. split; [apply construct_ok; reflexivity|reflexivity]. Qed.

Lemma sign_few fermion types (few : few_fermions fermion types) (inco : bool) o : rearrangement types o ->
  inco = true \/ exists m, Utilities.Model.minSwaps o (par fermion types) = Ok (m, sgn fermion types o).
Proof. intro Hr. right. now apply minSwaps_sgn. Qed.

(** The value of an amplitude is the sum over the rearrangements, each with the sign of the exchanged fermions, divided by the root of their
    number; without symmetrisation it is the value for the order that is given. *)
Theorem C88_value : forall (M : Type) fermion propagator spin bgSpin0 types ls, few_fermions fermion types -> placed types ls ->
  forall os, NoDup os -> (forall o, In o os <-> rearrangement types o) -> forall x : nat -> M,
  (exists ls', getExpression M fermion propagator spin false false bgSpin0 false x ls =
     Ok ((sumC (map (fun o => RtoC (IZR ((-1) ^ Z.of_nat (exchanges fermion types o))) * arranged M propagator spin bgSpin0 o x ls)%C os) / RtoC (sqrt (INR (List.length os))))%C, ls')) /\
  (exists ls', getExpression M fermion propagator spin true false bgSpin0 false x ls = Ok (arranged M propagator spin bgSpin0 (seq 0 (List.length types)) x ls, ls')).
Proof.
  intros M fermion propagator spin bg types ls few Hp os Nd Hos x.
  assert (P : Permutation os (identicalDaughterOrderings ls)).
  { apply NoDup_Permutation; [exact Nd|apply (orderings_nodup types ls Hp)|]. intro o. rewrite Hos. symmetry. now apply orderings_in. }
  split.
  - destruct (expression_ok M fermion propagator spin false bg false types (sgn fermion types) (sign_few fermion types few false) x ls Hp) as (r & o & E & G).
    rewrite <- E in G. eexists. rewrite G. do 2 f_equal. unfold finish. rewrite (Permutation_length P). apply (f_equal (fun a => a / _)%C).
    rewrite <- (sumC_perm _ _ (Permutation_map _ P)). apply f_equal, map_ext. intro a. unfold contribution. now rewrite sgn_exchanges.
  - eexists. rewrite (nosym_ok M fermion propagator spin false bg false types (sgn fermion types) (sign_few fermion types few false) x ls Hp).
    do 2 f_equal. unfold finish, contribution. cbn [List.length INR]. rewrite sqrt_1.
    replace (sgn fermion types (seq 0 (List.length types))) with 1%Z.
    + unfold Cdiv. replace (/ RtoC 1)%C with (RtoC 1) by (rewrite <- RtoC_inv by lra; now rewrite Rinv_1). ring.
    + rewrite sgn_exchanges. unfold exchanges. rewrite (filter_ext_in _ (fun _ => false)).
      * clear. induction (seq 0 (List.length types)) as [|a l IH]; [reflexivity|exact IH].
      * intros k I. apply in_seq in I. rewrite seq_nth by lia. rewrite Nat.add_0_l. now rewrite Nat.ltb_irrefl, andb_false_r.
Qed.
Print Assumptions C88_value.

Definition fermion_ex (x : str) : bool := str_eqb x (S_ "mu-").
Lemma few_ex : few_fermions fermion_ex (map S_ ["mu-"; "pi+"; "mu-"]%string).
Proof. intros i j k x Hi Hj Hk F. destruct (str_eqb_spec x (S_ "mu-")) as [->|]; [|unfold fermion_ex in F; destruct (str_eqb_spec x (S_ "mu-")); congruence].
  destruct i as [|[|[|[|i]]]], j as [|[|[|[|j]]]], k as [|[|[|[|k]]]]; cbn in *; try discriminate; auto. Qed.
Example C88_value_ex : let types := map S_ ["mu-"; "pi+"; "mu-"]%string in let ls := construct types types in
  few_fermions fermion_ex types /\ placed types ls /\ map (exchanges fermion_ex types) (identicalDaughterOrderings ls) = [0; 1].
Proof. split; [exact few_ex|]. split; [apply construct_ok; reflexivity|reflexivity]. Qed.

(** Without identical particles nothing is changed. *)
Theorem C88_distinct : forall (M : Type) fermion propagator spin bgSpin0 types ls, NoDup types -> placed types ls ->
  forall x : nat -> M, exists ls', getExpression M fermion propagator spin false false bgSpin0 false x ls =
    Ok ((propagator (map (fun l => x (orig l)) ls) * (if bgSpin0 then RtoC 1 else spin (map (fun l => (x (orig l), pol l)) ls)))%C, ls').
Proof.
  intros M fermion propagator spin bg types ls Nd Hp x.
  assert (few : few_fermions fermion types).
  { intros i j k y Hi Hj _ _. left. apply (proj1 (NoDup_nth_error types) Nd); [apply nth_error_Some; congruence|congruence]. }
  assert (U : forall o, In o (seq 0 (List.length types) :: nil) <-> rearrangement types o).
  { intro o. split.
    - intros [<- | []]. split; [reflexivity|]. intros k Hk. now rewrite seq_nth.
    - intros [P H]. left. assert (L : List.length o = List.length types) by (rewrite (Permutation_length P); apply seq_length). apply (nth_ext _ _ 0 0); [now rewrite seq_length|].
      intros k Hk. rewrite seq_length in Hk. rewrite seq_nth by exact Hk. cbn. apply (proj1 (NoDup_nth_error types) Nd); [exact Hk|]. symmetry. now apply H. }
  destruct (C88_value M fermion propagator spin bg types ls few Hp (seq 0 (List.length types) :: nil) (NoDup_cons (seq 0 (List.length types)) (@in_nil _ _) (NoDup_nil _)) U x) as [[ls' E] _].
  exists ls'. rewrite E. do 2 f_equal. cbn [map sumC fold_right List.length INR]. rewrite sqrt_1.
  assert (Z0 : exchanges fermion types (seq 0 (List.length types)) = 0).
  { unfold exchanges. rewrite (filter_ext_in _ (fun _ => false)).
    - clear. induction (seq 0 (List.length types)) as [|a l IH]; [reflexivity|exact IH].
    - intros k I. apply in_seq in I. rewrite seq_nth by lia. rewrite Nat.add_0_l. now rewrite Nat.ltb_irrefl, andb_false_r. }
  rewrite Z0. assert (A : arranged M propagator spin bg (seq 0 (List.length types)) x ls =
    (propagator (map (fun l => x (orig l)) ls) * (if bg then RtoC 1 else spin (map (fun l => (x (orig l), pol l)) ls)))%C).
  { unfold arranged. cbv zeta. assert (Q : forall l, In l ls -> x (nth (orig l) (seq 0 (List.length types)) 0) = x (orig l)) by (intros l I; now rewrite seq_nth by (apply (orig_lt types ls Hp l I))).
    f_equal; [f_equal; apply map_ext_in; exact Q|]. destruct bg; [reflexivity|]. f_equal. apply map_ext_in. intros l I. f_equal. now apply Q. }
  rewrite A. unfold Cdiv. replace (/ RtoC 1)%C with (RtoC 1) by (rewrite <- RtoC_inv by lra; now rewrite Rinv_1). cbn [Z.of_nat Z.pow]. ring.
Qed.
Print Assumptions C88_distinct.
Example C88_distinct_ex : NoDup (map S_ ["K-"; "pi+"; "pi0"]%string).
Proof. cbn [map]. apply NoDup_cons; [|apply NoDup_cons; [|apply NoDup_cons; [|apply NoDup_nil]]]; cbn; intuition discriminate. Qed.

(** Exchanging the momenta of two identical bosons does not change an amplitude, whatever line shapes and spin factors it has. *)
Theorem C88_bosons : forall (M : Type) fermion propagator spin bgSpin0 constant types ls i j y, few_fermions fermion types -> placed types ls ->
  nth_error types i = Some y -> nth_error types j = Some y -> fermion y = false ->
  forall x : nat -> M, exists v ls', getExpression M fermion propagator spin false false bgSpin0 constant x ls = Ok (v, ls') /\
    getExpression M fermion propagator spin false false bgSpin0 constant (exchanged i j x) ls = Ok (v, ls').
Proof.
  intros M fermion propagator spin bg const types ls i j y few Hp Hi Hj Fy x.
  destruct (expression_ok M fermion propagator spin false bg const types (sgn fermion types) (sign_few fermion types few false) x ls Hp) as (r & o & E & G).
  destruct (expression_ok M fermion propagator spin false bg const types (sgn fermion types) (sign_few fermion types few false) (exchanged i j x) ls Hp) as (r' & o' & E' & G').
  rewrite E in E'. apply app_inj_tail in E' as [<- <-]. rewrite <- E in G, G'. do 2 eexists. split; [exact G|]. rewrite G'. do 2 f_equal. f_equal.
  apply (sum_swap M propagator spin false bg types (sgn fermion types) i j x y ls (fun c => c) Hp Hi Hj); [|reflexivity|reflexivity].
  intros a Ha. unfold contribution. rewrite (arranged_exchanged M propagator spin bg types i j x a ls Hp Ha). rewrite (sgn_boson fermion types i j y a Hi Hj Fy Ha). reflexivity.
Qed.
Print Assumptions C88_bosons.
Example C88_bosons_ex : let types := map S_ ["K-"; "pi+"; "pi+"; "pi+"]%string in let ls := construct types types in
  few_fermions fermion_ex types /\ placed types ls /\ nth_error types 1 = Some (S_ "pi+") /\ nth_error types 3 = Some (S_ "pi+") /\ fermion_ex (S_ "pi+") = false.
Proof.
  cbv zeta. split; [|split; [apply construct_ok; reflexivity|now repeat split]]. intros i j k x Hi Hj Hk F. exfalso.
  destruct i as [|[|[|[|i]]]]; cbn in Hi; try (injection Hi as <-; cbn in F; discriminate). destruct i; discriminate.
Qed.

(** Exchanging the momenta of two identical fermions changes the sign, if there are no three of a kind. *)
Theorem C88_fermions : forall (M : Type) fermion propagator spin bgSpin0 types ls i j y, few_fermions fermion types -> placed types ls ->
  i <> j -> nth_error types i = Some y -> nth_error types j = Some y -> fermion y = true ->
  forall x : nat -> M, exists v ls', getExpression M fermion propagator spin false false bgSpin0 false x ls = Ok (v, ls') /\
    getExpression M fermion propagator spin false false bgSpin0 false (exchanged i j x) ls = Ok ((- v)%C, ls').
Proof.
  intros M fermion propagator spin bg types ls i j y few Hp Nij Hi Hj Fy x.
  destruct (expression_ok M fermion propagator spin false bg false types (sgn fermion types) (sign_few fermion types few false) x ls Hp) as (r & o & E & G).
  destruct (expression_ok M fermion propagator spin false bg false types (sgn fermion types) (sign_few fermion types few false) (exchanged i j x) ls Hp) as (r' & o' & E' & G').
  rewrite E in E'. apply app_inj_tail in E' as [<- <-]. rewrite <- E in G, G'. do 2 eexists. split; [exact G|]. rewrite G'. do 2 f_equal. unfold finish.
  rewrite (sum_swap M propagator spin false bg types (sgn fermion types) i j x y ls Copp Hp Hi Hj); [unfold Cdiv; ring| |intros; ring|ring].
  intros a Ha. unfold contribution. rewrite (arranged_exchanged M propagator spin bg types i j x a ls Hp Ha). rewrite (sgn_fermion fermion types few i j y a Nij Hi Hj Fy Ha), opp_IZR, RtoC_opp. ring.
Qed.
Print Assumptions C88_fermions.
Example C88_fermions_ex : let types := map S_ ["mu-"; "pi+"; "mu-"]%string in let ls := construct types types in
  few_fermions fermion_ex types /\ placed types ls /\ nth_error types 0 = Some (S_ "mu-") /\ nth_error types 2 = Some (S_ "mu-") /\ fermion_ex (S_ "mu-") = true.
Proof. split; [exact few_ex|]. split; [apply construct_ok; reflexivity|now repeat split]. Qed.

(** Summed incoherently, the exchange of any two identical particles changes nothing, and the value is not negative. *)
Theorem C88_incoherent : forall (M : Type) fermion propagator spin bgSpin0 constant types ls i j y, placed types ls ->
  nth_error types i = Some y -> nth_error types j = Some y ->
  forall x : nat -> M, exists v ls', (0 <= v)%R /\ getExpression M fermion propagator spin false true bgSpin0 constant x ls = Ok (RtoC v, ls') /\
    getExpression M fermion propagator spin false true bgSpin0 constant (exchanged i j x) ls = Ok (RtoC v, ls') /\
    forall os, NoDup os -> (forall o, In o os <-> rearrangement types o) -> (v * v)%R = (sumR (map (fun o => Cmod (arranged M propagator spin bgSpin0 o x ls) ^ 2) os) / INR (List.length os))%R.
Proof.
  intros M fermion propagator spin bg const types ls i j y Hp Hi Hj x.
  assert (S : forall o, rearrangement types o -> true = true \/ exists m, Utilities.Model.minSwaps o (par fermion types) = Ok (m, 1%Z)) by (intros; now left).
  destruct (expression_ok M fermion propagator spin true bg const types (fun _ => 1%Z) S x ls Hp) as (r & o & E & G).
  destruct (expression_ok M fermion propagator spin true bg const types (fun _ => 1%Z) S (exchanged i j x) ls Hp) as (r' & o' & E' & G').
  rewrite E in E'. apply app_inj_tail in E' as [<- <-]. rewrite <- E in G, G'. unfold finish in G, G'.
  eexists _, _. split; [|split; [exact G|split]]; [apply sqrt_pos| |].
  - rewrite G'. do 5 f_equal. apply f_equal. apply (sum_swap M propagator spin true bg types (fun _ => 1%Z) i j x y ls (fun c => c) Hp Hi Hj); [|reflexivity|reflexivity].
    intros a Ha. unfold contribution. now rewrite (arranged_exchanged M propagator spin bg types i j x a ls Hp Ha).
  - intros os Nd Hos. assert (P : Permutation os (identicalDaughterOrderings ls)).
    { apply NoDup_Permutation; [exact Nd|apply (orderings_nodup types ls Hp)|]. intro a. rewrite Hos. symmetry. now apply orderings_in. }
    rewrite <- (sumC_perm _ _ (Permutation_map _ P)), <- (Permutation_length P).
    assert (Q : forall l, Re (sumC (map (contribution M propagator spin true bg (fun _ => 1%Z) x ls) l)) = sumR (map (fun o0 => Cmod (arranged M propagator spin bg o0 x ls) ^ 2)%R l)).
    { induction l as [|a l IH]; [reflexivity|]. transitivity (Re (contribution M propagator spin true bg (fun _ => 1%Z) x ls a) + Re (sumC (map (contribution M propagator spin true bg (fun _ => 1%Z) x ls) l)))%R; [reflexivity|].
      cbn [map]. transitivity (Cmod (arranged M propagator spin bg a x ls) ^ 2 + sumR (map (fun o0 => Cmod (arranged M propagator spin bg o0 x ls) ^ 2) l))%R; [|reflexivity].
      rewrite IH. f_equal. unfold contribution. set (z := arranged M propagator spin bg a x ls). unfold Cmod. rewrite pow2_sqrt by nra. cbn. ring. }
    rewrite Q. apply sqrt_sqrt. apply Rmult_le_pos.
    + clear. induction os as [|a os IH]; cbn; [lra|]. pose proof (pow2_ge_0 (Cmod (arranged M propagator spin bg a x ls))). cbn in H. unfold sumR in IH. cbn in IH. lra.
    + apply Rlt_le, Rinv_0_lt_compat, lt_0_INR. rewrite (Permutation_length P), E, app_length. cbn. lia.
Qed.
Print Assumptions C88_incoherent.
Example C88_incoherent_ex : let types := map S_ ["pi+"; "pi+"; "pi-"]%string in let ls := construct (map S_ ["pi-"; "pi+"; "pi+"]%string) types in
  placed types ls /\ nth_error types 0 = Some (S_ "pi+") /\ nth_error types 1 = Some (S_ "pi+").
Proof. split; [apply construct_ok; apply (Permutation_app_comm (map S_ ["pi-"]%string))|split; reflexivity]. Qed.

(** Building the expression again gives the same; the first time leaves the indices as the last ordering has them. *)
Theorem C88_again : forall (M : Type) fermion propagator spin noSym inco bgSpin0 constant types ls, few_fermions fermion types -> placed types ls ->
  forall x : nat -> M, exists v ls', getExpression M fermion propagator spin noSym inco bgSpin0 constant x ls = Ok (v, ls') /\
    getExpression M fermion propagator spin noSym inco bgSpin0 constant x ls' = Ok (v, ls') /\
    map (fun l => (lname l, orig l, pol l)) ls' = map (fun l => (lname l, orig l, pol l)) ls /\
    exists o, rearrangement types o /\ forall l, In l ls' -> idx l = nth (orig l) o 0.
Proof.
  intros M fermion propagator spin noSym inco bg const types ls few Hp x.
  pose proof (sign_few fermion types few inco) as S.
  assert (Id : forall o, forall l, In l (placing o ls) -> idx l = nth (orig l) o 0) by (intros o l I; unfold placing in I; apply in_map_iff in I as (m & <- & _); reflexivity).
  destruct noSym.
  - eexists _, _. split; [apply (nosym_ok M fermion propagator spin inco bg const types (sgn fermion types) S x ls Hp)|]. set (o := seq 0 (List.length types)).
    assert (Hp' : placed types (placing o ls)) by (apply (key_placed types ls); [apply placing_key|exact Hp]).
    rewrite (nosym_ok M fermion propagator spin inco bg const types (sgn fermion types) S x _ Hp'). fold o. split; [|split; [apply placing_key|exists o; split; [|apply Id]]].
    + rewrite (contribution_key M propagator spin inco bg (sgn fermion types) x ls) by apply placing_key. now rewrite (placing_again o ls (placing o ls)) by apply placing_key.
    + split; [reflexivity|]. intros k Hk. unfold o. now rewrite seq_nth.
  - destruct (expression_ok M fermion propagator spin inco bg const types (sgn fermion types) S x ls Hp) as (r & o & E & G).
    assert (Hp' : placed types (placing o ls)) by (apply (key_placed types ls); [apply placing_key|exact Hp]).
    destruct (expression_ok M fermion propagator spin inco bg const types (sgn fermion types) S x _ Hp') as (r' & o' & E' & G').
    rewrite (orderings_eq types _ Hp'), <- (orderings_eq types ls Hp), E in E'. apply app_inj_tail in E' as [<- <-].
    eexists _, _. split; [exact G|]. rewrite G'. split; [|split; [apply placing_key|exists o; split; [|apply Id]]].
    + rewrite (placing_again o ls (placing o ls)) by apply placing_key. do 3 f_equal. apply f_equal, map_ext. intro a. apply contribution_key, placing_key.
    + apply (orderings_in types ls Hp). rewrite E. apply in_or_app. right. now left.
Qed.
Print Assumptions C88_again.
Example C88_again_ex : let types := map S_ ["mu-"; "pi+"; "mu-"]%string in let ls := construct (map S_ ["pi+"; "mu-"; "mu-"]%string) types in
  few_fermions fermion_ex types /\ placed types ls /\ map idx ls = [1; 0; 2] /\
  exists v ls', getExpression nat fermion_ex (fun _ => RtoC 1) (fun _ => RtoC 1) false false false false (fun k => k) ls = Ok (v, ls') /\ map idx ls' = [1; 2; 0].
Proof. split; [exact few_ex|]. split; [apply construct_ok; apply perm_swap|]. split; [reflexivity|]. do 2 eexists. split; reflexivity. Qed.

(** After the expression of an amplitude with identical particles is built, their indices are not those they had: what is then read from the
    particle (its momenta, its invariant masses) belongs to other particles of the event. *)
Theorem C88_indices_left_refuted : exists types ls x v ls', placed types ls /\
  getExpression nat (fun _ => false) (fun _ => RtoC 1) (fun _ => RtoC 1) false false false false x ls = Ok (v, ls') /\ map idx ls = [0; 1] /\ map idx ls' = [1; 0].
Proof.
  exists (map S_ ["pi0"; "pi0"]%string), (construct (map S_ ["pi0"; "pi0"]%string) (map S_ ["pi0"; "pi0"]%string)), (fun k => k). do 2 eexists.
  split; [apply construct_ok; reflexivity|]. split; [reflexivity|]. split; reflexivity.
Qed.
Print Assumptions C88_indices_left_refuted.

(** With three identical fermions an amplitude is not antisymmetric: cyclic exchanges have the wrong sign. *)
Theorem C88_three_fermions_refuted : exists types ls (x : nat -> R) propagator v w l1 l2, placed types ls /\
  nth_error types 0 = Some (S_ "p") /\ nth_error types 1 = Some (S_ "p") /\
  getExpression R (fun _ => true) propagator (fun _ => RtoC 1) false false false false x ls = Ok (v, l1) /\
  getExpression R (fun _ => true) propagator (fun _ => RtoC 1) false false false false (exchanged 0 1 x) ls = Ok (w, l2) /\ w <> (- v)%C.
Proof.
  exists (map S_ ["p"; "p"; "p"]%string), (construct (map S_ ["p"; "p"; "p"]%string) (map S_ ["p"; "p"; "p"]%string)), (fun k => if Nat.eqb k 1 then 1%R else 0%R), (fun l => RtoC (hd 0%R l)).
  do 4 eexists. split; [apply construct_ok; reflexivity|]. split; [reflexivity|]. split; [reflexivity|]. split; [reflexivity|]. split; [reflexivity|].
  intro H. apply (f_equal Re) in H. cbn in H.
  set (s := sqrt (1 + 1 + 1 + 1 + 1 + 1)%R) in H. assert (Hs : (s * s = 6)%R) by (unfold s; rewrite sqrt_sqrt; lra). assert (Np : (s <> 0)%R) by (intro Z; rewrite Z in Hs; lra).
  replace (s * (s * 1) + 0 * (0 * 1))%R with 6%R in H by lra. apply Np. lra.
Qed.
Print Assumptions C88_three_fermions_refuted.

(** Only momenta are exchanged, polarisations stay where they are: for identical fermions with different polarisations, exchanging both does
    not change the sign. *)
Theorem C88_polarisations_refuted : exists types ls (x : nat -> R) spin s1 s2 l1 l2 v w l3 l4, placed types ls /\
  nth_error types 0 = Some (S_ "mu-") /\ nth_error types 1 = Some (S_ "mu-") /\ few_fermions fermion_ex types /\ s2 = rev s1 /\ List.length s1 = 2 /\
  setPolarisationState s1 ls = Ok l1 /\ setPolarisationState s2 ls = Ok l2 /\
  getExpression R fermion_ex (fun _ => RtoC 1) spin false false false false x l1 = Ok (v, l3) /\
  getExpression R fermion_ex (fun _ => RtoC 1) spin false false false false (exchanged 0 1 x) l2 = Ok (w, l4) /\ w <> (- v)%C.
Proof.
  exists (map S_ ["mu-"; "mu-"]%string), (construct (map S_ ["mu-"; "mu-"]%string) (map S_ ["mu-"; "mu-"]%string)), (fun k => if Nat.eqb k 0 then 1%R else 0%R),
    (fun l => RtoC (match l with (a, s) :: _ => a * IZR s | [] => 0 end)%R), [1%Z; (-1)%Z], [(-1)%Z; 1%Z].
  do 6 eexists. split; [apply construct_ok; reflexivity|]. split; [reflexivity|]. split; [reflexivity|]. split.
  { intros i j k x Hi Hj Hk _. destruct i as [|[|i]], j as [|[|j]], k as [|[|k]]; cbn in *; auto; destruct i + destruct j + destruct k; discriminate. }
  split; [reflexivity|]. split; [reflexivity|]. split; [reflexivity|]. split; [reflexivity|]. split; [reflexivity|]. split; [reflexivity|].
  intro H. apply (f_equal Re) in H. cbn in H.
  set (s := sqrt (1 + 1)%R) in H. assert (Hs : (s * s = 2)%R) by (unfold s; rewrite sqrt_sqrt; lra). assert (Np : (s <> 0)%R) by (intro Z; rewrite Z in Hs; lra).
  replace (s * (s * 1) + 0 * (0 * 1))%R with 2%R in H by lra. apply Np. lra.
Qed.
Print Assumptions C88_polarisations_refuted.

(** The polarisations of a state go to the particles by their places in the event type, whatever ordering has been set before; names,
    places and ordering stay. *)
Theorem C88_states types ls o state : placed types ls -> List.length types <= List.length state ->
  exists ls', setPolarisationState state (setOrdering o ls) = Ok ls' /\ List.length ls' = List.length ls /\
    forall k l, nth_error ls k = Some l -> exists l' i, nth_error ls' k = Some l' /\ nth_error (setOrdering o ls) k = Some (Leaf (lname l) (orig l) i (pol l)) /\
      lname l' = lname l /\ orig l' = orig l /\ idx l' = i /\ nth_error state (orig l) = Some (pol l').
Proof.
  intros Hp Hs. pose proof (placed_length types ls Hp) as HL. unfold setPolarisationState.
  assert (HO : List.length (setOrdering o ls) = List.length ls) by (unfold setOrdering; apply map_length).
  rewrite (proj2 (Nat.leb_le _ _)) by lia. eexists. split; [reflexivity|]. split; [rewrite map_length; exact HO|].
  intros k l Hk. set (l1 := match nth_error o (rank ls l) with Some i => set_index i false l | None => l end).
  assert (E1 : nth_error (setOrdering o ls) k = Some l1) by (unfold setOrdering; rewrite nth_error_map, Hk; reflexivity).
  assert (E2 : l1 = Leaf (lname l) (orig l) (idx l1) (pol l)) by (unfold l1; destruct (nth_error o (rank ls l)); [reflexivity | destruct l; reflexivity]).
  assert (E3 : rank (setOrdering o ls) l1 = orig l).
  { assert (O1 : orig l1 = orig l) by (rewrite E2; reflexivity). rewrite <- (rank_orig types ls Hp l (nth_error_In _ _ Hk)). change (List.length (filter (fun l' => orig l' <? orig l1) (setOrdering o ls)) = List.length (filter (fun l' => orig l' <? orig l) ls)). rewrite O1.
    unfold setOrdering. clear. generalize (rank ls) as r. intro r. induction ls as [| x ls' IH]; [reflexivity|]. cbn [map filter].
    assert (O : orig (match nth_error o (r x) with Some i => set_index i false x | None => x end) = orig x) by (destruct (nth_error o (r x)); reflexivity).
    rewrite O. destruct (orig x <? orig l); cbn [List.length]; [f_equal|]; exact IH. }
  exists (Leaf (lname l1) (orig l1) (idx l1) (nth (rank (setOrdering o ls) l1) state 0%Z)), (idx l1). rewrite nth_error_map, E1. cbn [option_map]. rewrite <- E2.
  split; [reflexivity|]. split; [reflexivity|]. rewrite E2. cbn [lname orig idx pol]. repeat split. rewrite <- E2, E3. apply nth_error_nth'.
  pose proof (orig_lt types ls Hp l (nth_error_In _ _ Hk)). lia.
Qed.
Print Assumptions C88_states.
Example states_ex : placed (map S_ ["mu-"; "pi+"; "mu-"]%string) (construct (map S_ ["mu-"; "mu-"; "pi+"]%string) (map S_ ["mu-"; "pi+"; "mu-"]%string)).
Proof. split; [cbn; apply perm_skip; apply perm_swap | intros l [<-|[<-|[<-|[]]]]; reflexivity]. Qed.
