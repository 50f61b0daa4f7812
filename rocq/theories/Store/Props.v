From Coq Require Import NArith Nnat.
From Verif.Common Require Import Prelude Writes.
From Verif.Store Require Import Model Spec Proofs.
Local Open Scope nat_scope.

(** ** C30 *)
(** After any history of calls with nothing registered or cleared since the last sizing, in either layout: every block and
    field in range can be read, and writing one changes that one only. *)
Theorem C30_cells : forall V v0 al w h e0 f0 s, run V v0 al w h (construct V v0 w e0 f0) = Ok s -> up_to_date V h true = true ->
  n_blocks s = blocks w (n_entries s) /\
  (forall i f, i < n_blocks s -> f < n_fields s -> exists v, read V al s i f = Ok v) /\
  (forall i f v, i < n_blocks s -> f < n_fields s -> exists s', write V al s i f v = Ok s' /\
     n_entries s' = n_entries s /\ n_fields s' = n_fields s /\ names s' = names s /\ read V al s' i f = Ok v /\
     forall i' f', i' < n_blocks s -> f' < n_fields s -> (i', f') <> (i, f) -> read V al s' i' f' = read V al s i' f').
Proof. exact cells_ok. Qed.
Print Assumptions C30_cells.
Definition ex_hist : list (call nat) :=
  [Add (S_ "a") 2; Allocate 5 [(S_ "b", 1); (S_ "a", 2)]; Put 4 2 7; Put 0 1 8; Clear; Add (S_ "c") 1; Resize 3; Put 2 3 9].
Example C30_example : up_to_date nat ex_hist true = true /\
  exists s, run nat 0 SoA 1 ex_hist (construct nat 0 1 4 0) = Ok s /\ n_blocks s = 3 /\ n_fields s = 4 /\ read nat SoA s 2 3 = Ok 9 /\
    read nat SoA s 1 3 = Ok 0.
Proof. split; [reflexivity|]. eexists. split; [vm_compute; reflexivity|]. repeat split. Qed.

(** Below 2^32 entries the block of every event is in range, so an event of a sized store has its value. *)
Theorem C30_events_partial : forall L (v0 : list L) al w h e0 f0 s, 0 < w -> List.length v0 = w ->
  run (list L) v0 al w h (construct (list L) v0 w e0 f0) = Ok s -> up_to_date (list L) h true = true ->
  (forall i f v, In (Put i f v) h -> List.length v = w) ->
  (N.of_nat (n_entries s) < 4294967296)%N ->
  forall i f, i < n_entries s -> f < n_fields s -> exists x, get al w s i f = Ok x.
Proof.
  intros L v0 al w h e0 f0 s Hw L0 R U P B i f Hi Hf. destruct (cells_ok _ _ _ _ _ _ _ _ R U) as (Eb & Rd & _).
  pose proof (blocks_hold w _ _ Hw B Hi) as Hb. rewrite <- Eb in Hb. destruct (Rd _ f Hb Hf) as (v & E).
  unfold get. rewrite E. cbn [bind].
  assert (Lv : List.length v = w).
  { assert (G : forall h s s', (forall i f v, In (Put i f v) h -> List.length v = w) -> (forall c, In c (cells s) -> List.length c = w) ->
      run (list L) v0 al w h s = Ok s' -> forall c, In c (cells s') -> List.length c = w).
    { clear - L0. induction h as [|o h IH]; intros s s' P C R; [cbn [run] in R; injection R as <-; exact C|].
      cbn [run] in R. destruct (step (list L) v0 al w o s) as [s1| | |] eqn:E; try discriminate. cbn [bind] in R.
      apply (IH s1 s'); [intros; eapply P; right; eassumption| |exact R]. clear R IH.
      assert (Vr : forall l n, (forall c, In c l -> List.length c = w) -> forall c, In c (vresize (list L) v0 l n) -> List.length c = w).
      { intros l n H c Hc. apply in_app_iff in Hc as [Hc|Hc]; [apply H; rewrite <- (firstn_skipn n l); apply in_app_iff; now left|]. apply repeat_spec in Hc. now subst. }
      assert (Ad : forall n k s, cells (add_functor (list L) n k s) = cells s) by (intros n k t; unfold add_functor; destruct (lookup n (names t)); reflexivity).
      destruct o; cbn [step] in E.
      - injection E as <-. now rewrite Ad.
      - injection E as <-. now apply Vr.
      - injection E as <-. now apply Vr.
      - injection E as <-. intros c [].
      - injection E as <-. apply Vr. assert (X : cells (fold_left (fun s f => add_functor (list L) (fst f) (snd f) s) fs s) = cells s); [|now rewrite X].
        clear. revert s. induction fs as [|f fs IH]; intro s; [reflexivity|]. cbn [fold_left]. rewrite IH. unfold add_functor. destruct (lookup (fst f) (names s)); reflexivity.
      - unfold write in E. destruct (Nat.lt_ge_cases (address (list L) al s index field) (List.length (cells s))) as [Lt|Ge].
        + destruct (set_at_Some _ v _ Lt) as (c & Es & _ & K). rewrite Es in E. cbn [of_opt bind] in E. injection E as <-. cbn [cells].
          intros x Hx. apply In_nth_error in Hx as (k & Hk). rewrite K in Hk. destruct (k =? address (list L) al s index field).
          * injection Hk as <-. eapply P. now left.
          * apply C. now apply nth_error_In in Hk.
        + rewrite set_at_None in E by assumption. discriminate. }
    unfold read in E. destruct (nth_error (cells s) (address (list L) al s (i / w) f)) as [c|] eqn:En; [|discriminate]. cbn [of_opt] in E. injection E as <-.
    apply nth_error_In in En. apply (G h _ _ P) with (2 := R); [|exact En]. cbn [construct cells]. intros c' Hc. apply repeat_spec in Hc. now subst. }
  destruct (nth_error v (i mod w)) as [x|] eqn:En; [exists x; reflexivity|]. apply nth_error_None in En.
  pose proof (Nat.mod_upper_bound i w ltac:(lia)). lia.
Qed.
Print Assumptions C30_events_partial.
Example C30_events_example : exists s, run (list nat) [0; 0] AoS 2 [Allocate 5 [(S_ "a", 2)]; Put 2 1 [6; 7]] (construct (list nat) [0; 0] 2 0 0) = Ok s /\
  n_blocks s = 3 /\ get AoS 2 s 4 1 = Ok 6 /\ get AoS 2 s 3 1 = Ok 0.
Proof. eexists. split; [vm_compute; reflexivity|]. repeat split. Qed.
(** The number of blocks is converted to [unsigned]: with 2^32 events (one value per block) there is no block at all and
    the first event is outside the storage. *)
Theorem C30_many_events_refuted : exists n, 0 < n /\ forall V v0 al, let s := construct V v0 1 n 1 in n_entries s = n /\ read V al s 0 0 = UB.
Proof.
  exists (N.to_nat 4294967296). split; [lia|]. intros V v0 al s. split; [reflexivity|].
  assert (B : blocks 1 (N.to_nat 4294967296) = 0).
  { unfold blocks. destruct (N.to_nat 4294967296 =? 0) eqn:E; [reflexivity|]. apply Nat.eqb_neq in E.
    rewrite Nat.div_1_r. replace (1 + (N.to_nat 4294967296 - 1)) with (N.to_nat 4294967296) by lia.
    unfold unsigned_of. rewrite N2Nat.id. reflexivity. }
  unfold s, construct, read. rewrite B. cbn [cells Nat.mul repeat]. now destruct (address _ _ _ _ _).
Qed.
Print Assumptions C30_many_events_refuted.

(** [update] of a registered function, the events in any order: every event gets its values, nothing else changes. *)
Theorem C30_update : forall V v0 al w h e0 f0 s n f fcn evts, run V v0 al w h (construct V v0 w e0 f0) = Ok s -> up_to_date V h true = true ->
  lookup n (names s) = Some f -> f <> [] -> NoDup f -> (forall g, In g f -> g < n_fields s) -> (forall e, List.length (fcn e) = List.length f) ->
  (forall e, In e evts -> e < n_blocks s) ->
  exists s', update V al evts n fcn s = Ok s' /\
    (forall e k g v, In e evts -> nth_error f k = Some g -> nth_error (fcn e) k = Some v -> read V al s' e g = Ok v) /\
    forall i g, i < n_blocks s -> g < n_fields s -> (~ In i evts \/ ~ In g f) -> read V al s' i g = read V al s i g.
Proof.
  intros V v0 al w h e0 f0 s n f fcn evts R U Hn Ne ND Hf L He.
  assert (S : sized V s).
  { apply (sized_inv V v0 al w h _ _ true) with (2 := R); [|exact U]. intros _. unfold sized, construct. cbn. apply repeat_length. }
  destruct (update_loop_ok V al fcn f ND L evts s S He Hf) as (s' & E & _ & _ & _ & _ & K & O). exists s'.
  unfold update. rewrite Hn. cbn [of_opt bind]. destruct f; [congruence|]. auto.
Qed.
Print Assumptions C30_update.
Example C30_update_example : exists s, run nat 0 SoA 1 [Allocate 3 [(S_ "a", 1); (S_ "b", 2)]] (construct nat 0 1 0 0) = Ok s /\
  lookup (S_ "b") (names s) = Some [1; 2] /\
  exists s', update nat SoA [2; 0; 1] (S_ "b") (fun e => [10 * e; 10 * e + 1]) s = Ok s' /\ cells s' = [0; 0; 0; 0; 10; 20; 1; 11; 21].
Proof. eexists. split; [vm_compute; reflexivity|]. split; [reflexivity|]. eexists. split; vm_compute; reflexivity. Qed.

(** Resizing keeps the stored values: always for arrays of structures; for structures of arrays when the number of blocks
    stays. The full claim has no condition. *)
Theorem C30_resize_partial : forall V v0 al w h e0 f0 s e, run V v0 al w h (construct V v0 w e0 f0) = Ok s -> up_to_date V h true = true ->
  (al = SoA -> blocks w e = n_blocks s) ->
  forall i f, i < n_blocks s -> i < blocks w e -> f < n_fields s -> read V al (resize V v0 w e s) i f = read V al s i f.
Proof.
  intros V v0 al w h e0 f0 s e R U A i f Hi He Hf. apply read_after_resize; try assumption; [|destruct al; auto].
  apply (sized_inv V v0 al w h _ _ true) with (2 := R); [|exact U]. intros _. unfold sized, construct. cbn. apply repeat_length.
Qed.
Print Assumptions C30_resize_partial.
(** With structures of arrays a change of the number of events leaves the old values at the old addresses: event 0 of
    field 1 reads what was event 1 of field 0. With arrays of structures the same happens when a function is added to a
    filled store and the store is sized again. *)
Theorem C30_resize_refuted :
  (exists s, run nat 0 SoA 1 [Allocate 1 [(S_ "a", 1); (S_ "b", 1)]; Put 0 0 5; Put 0 1 6] (construct nat 0 1 0 0) = Ok s /\
     read nat SoA s 0 1 = Ok 6 /\ read nat SoA (resize nat 0 1 2 s) 0 1 = Ok 0 /\ read nat SoA (resize nat 0 1 2 s) 1 0 = Ok 6) /\
  (exists s, run nat 0 AoS 1 [Allocate 2 [(S_ "a", 1)]; Put 0 0 5; Put 1 0 6] (construct nat 0 1 0 0) = Ok s /\
     read nat AoS s 1 0 = Ok 6 /\ read nat AoS (allocate nat 0 1 2 [(S_ "b", 1)] s) 1 0 = Ok 0).
Proof. split; eexists; (split; [vm_compute; reflexivity|]); repeat split. Qed.
Print Assumptions C30_resize_refuted.

(** ** C31 *)
(** Registering any list of functions in a new store: every name gets the block of the size first asked for, blocks of different
    names share no field, every field below the total belongs to a name, and registering a name again changes nothing. The
    full claim is for every store; proved for one without fields of its own. *)
Theorem C31_blocks_partial : forall V fs (s : store V), names s = [] -> n_fields s = 0 ->
  let s' := fold_left (fun s f => add_functor V (fst f) (snd f) s) fs s in
  (forall n, match first_size n fs with
     | Some k => exists a, lookup n (names s') = Some (seq a k) /\ a + k <= n_fields s'
     | None => lookup n (names s') = None end) /\
  (forall n n' l l' f, n <> n' -> lookup n (names s') = Some l -> lookup n' (names s') = Some l' -> In f l -> ~ In f l') /\
  (forall f, f < n_fields s' -> exists n l, lookup n (names s') = Some l /\ In f l) /\
  (forall n k, In n (map fst fs) -> add_functor V n k s' = s').
Proof. exact register_ok. Qed.
Print Assumptions C31_blocks_partial.
Example C31_example : let s' := fold_left (fun s f => add_functor nat (fst f) (snd f) s) [(S_ "a", 2); (S_ "b", 1); (S_ "a", 5); (S_ "c", 3)] (construct nat 0 1 0 0) in
  n_fields s' = 6 /\ lookup (S_ "a") (names s') = Some [0; 1] /\ lookup (S_ "b") (names s') = Some [2] /\ lookup (S_ "c") (names s') = Some [3; 4; 5].
Proof. repeat split. Qed.
(** The constructor of a cache of a single function (AmpGen/Store.h:143-148) starts with one field: field 0 belongs to no function
    and is stored for every event. (It also reads the size of the input through a member that is not yet
    initialised, line 120.) After [clear] the number of fields is not reset either: registering the same function again
    leaves its former fields without owner. *)
Theorem C31_orphan_fields_refuted :
  (let s := resize nat 0 1 4 (add_functor nat (S_ "f") 1 (construct nat 0 1 4 1)) in
     0 < n_fields s /\ forall n l, lookup n (names s) = Some l -> ~ In 0 l) /\
  (let s := add_functor nat (S_ "f") 1 (clear nat (add_functor nat (S_ "f") 1 (construct nat 0 1 4 0))) in
     0 < n_fields s /\ forall n l, lookup n (names s) = Some l -> ~ In 0 l).
Proof.
  split; (split; [vm_compute; lia|]); intros n l H.
  - unfold resize, add_functor, construct in H. cbn [names lookup n_fields] in H.
    destruct (str_eqb (S_ "f") n); [|discriminate]. injection H as <-. cbn. intuition discriminate.
  - unfold add_functor, clear, construct in H. cbn [names lookup n_fields] in H.
    destruct (str_eqb (S_ "f") n); [|discriminate]. injection H as <-. cbn. intuition discriminate.
Qed.
Print Assumptions C31_orphan_fields_refuted.
