From Coq Require Import ZArith Reals Lra Permutation.
From Verif.Common Require Import Prelude Writes.
From Verif.Store Require Import Model.
From Verif.Coherent Require Import Model Spec Proofs Real.
Local Open Scope nat_scope.

(** ** C32 *)
(** The stores are those of C30, the elements have different names, data sets have fewer than 2^32 events and are not changed in place. *)
Theorem C32_cache_partial : forall (K : Type) (o : scalar K) (Ev : Type) (wt : Ev -> K) (V : Type) (veqb : V -> V -> bool) (P : Type)
    (els : list (element K Ev V P * list V)) (h : list (act Ev P)) (p0 : P) (c : cplx K) (v : K),
  (forall a b, reflect (a = b) (veqb a b)) -> sound els -> short h ->
  let p := now_p p0 h in
  exists s, run K o Ev wt V veqb P (h ++ [Prepare]) (p0, start K o Ev V P els c v) = Ok (p, s) /\
    match now_events h with
    | Some evts => forall e x, nth_error evts e = Some x ->
        (forall k y, nth_error els k = Some y -> read (cplx K) AoS (cache s) e k = Ok (fresh K Ev V P p y x)) /\
        get_val K o Ev V P s e = Ok (fresh_sum K o Ev V P p els x)
    | None => True end /\
    match now_mc h with
    | Some mc => (forall i j x y, i <= j -> nth_error els i = Some x -> nth_error els j = Some y ->
        nth_error (norms s) (i * List.length els + j) = Some (average K o Ev wt (fresh K Ev V P p x) (fresh K Ev V P p y) mc)) /\
        m_norm s = fresh_norm K o Ev wt V P p els mc
    | None => True end.
Proof. intros K o Ev wt V veqb P els h p0 c v Hv Hs Hh. exact (never_stale K o Ev wt V veqb P Hv els Hs h p0 c v Hh). Qed.
Print Assumptions C32_cache_partial.

Definition ZS : scalar Z := Scalar Z 0%Z Z.add Z.mul Z.opp Z.div.
(** Two elements: a1 = (q0 * x, 0), a2 = (x, q0 + q1) with q0 taken from the first fit parameter resp. both. *)
Definition e1 : element Z Z Z (Z * Z) := Element Z Z Z (Z * Z) (S_ "D0{K*,pi}") (fun q x => (nth 0 q 0 * x, 0)%Z) [(0, fst)] (fun p => (1, 0)%Z).
Definition e2 : element Z Z Z (Z * Z) := Element Z Z Z (Z * Z) (S_ "D0{rho,K}") (fun q x => (x, nth 0 q 0 + nth 1 q 0)%Z) [(1, snd)] (fun p => (0, fst p)%Z).
Definition els0 := [(e1, [7%Z]); (e2, [100%Z; 3%Z])].
Definition hist : list (act Z (Z * Z)) :=
  [SetEvents [1; 2; 3]%Z; SetMC [4; 5]%Z; Prepare; SetP (2, 3)%Z; Prepare; Prepare; SetP (2, 5)%Z; SetEvents [6; 7]%Z; SetP (2, 4)%Z; Prepare; SetP (9, 4)%Z].
Example C32_example : sound els0 /\ short hist /\
  (let r := run Z ZS Z (fun _ => 1%Z) Z Z.eqb (Z * Z) (hist ++ [Prepare]) ((5, 3)%Z, start Z ZS Z Z (Z * Z) els0 (0, 0)%Z 1%Z) in
   match r with Ok (p, s) => p = (9, 4)%Z /\ get_val Z ZS Z Z (Z * Z) s 1 = Ok (9 * 7 - 9 * 104, 9 * 7)%Z /\ calls s = 2 | _ => False end).
Proof.
  split; [|split].
  - split; [apply NoDup_cons; [intros [H|[]]; discriminate|apply NoDup_cons; [intros []|constructor]]|].
    intros x a f [<-|[<-|[]]] [H|[]]; injection H as <- _; cbn; lia.
  - intros a Ha. cbn [hist In] in Ha. repeat (destruct Ha as [<-|Ha]; [try exact I; vm_compute; reflexivity|]). destruct Ha.
  - vm_compute. repeat split.
Qed.

(** Two elements with the same decay descriptor share one field of the cache, but are read from two: the amplitude of an event is computed
    with the amplitudes of the next event, and for the last event the read is outside the cache. *)
Theorem C32_same_name_refuted : exists (els : list (element Z Z Z Z * list Z)) (evts : list Z) (p : Z) s,
  (forall x a f, In x els -> In (a, f) (sources (fst x)) -> a < List.length (snd x)) /\
  run Z ZS Z (fun _ => 1%Z) Z Z.eqb Z [SetEvents evts; Prepare] (p, start Z ZS Z Z Z els (0, 0)%Z 1%Z) = Ok (p, s) /\
  (exists v, get_val Z ZS Z Z Z s 0 = Ok v /\ v <> fresh_sum Z ZS Z Z Z p els (nth 0 evts 0%Z)) /\
  List.length evts = 2 /\ get_val Z ZS Z Z Z s 1 = UB.
Proof.
  exists [(Element Z Z Z Z (S_ "D0{K*,pi}") (fun _ x => (x, 0)%Z) [] (fun _ => (1, 0)%Z), []);
     (Element Z Z Z Z (S_ "D0{K*,pi}") (fun _ x => (x, 0)%Z) [] (fun _ => (0, 1)%Z), [])], [1%Z; 2%Z], 0%Z.
  eexists. split; [intros x a f [<-|[<-|[]]] []|]. split; [vm_compute; reflexivity|]. split; [|split; vm_compute; reflexivity].
  eexists. split; [vm_compute; reflexivity|]. vm_compute. discriminate.
Qed.
Print Assumptions C32_same_name_refuted.

(** The data set is held by pointer: when its owner changes an event in place, the next prepare() keeps the old amplitudes; when its owner
    appends an event, the next prepare() that updates an amplitude writes outside the cache. *)
Theorem C32_in_place_refuted : exists (els : list (element Z Z Z Z * list Z)) (evts : list Z) (p p' : Z) s,
  sound els /\ run Z ZS Z (fun _ => 1%Z) Z Z.eqb Z [SetEvents evts; Prepare] (p, start Z ZS Z Z Z els (0, 0)%Z 1%Z) = Ok (p, s) /\
  (exists l s', prepare Z ZS Z Z Z.eqb Z p (owner_changes l s) = Ok s' /\ List.length l = List.length evts /\
    get_val Z ZS Z Z Z s' 0 <> Ok (fresh_sum Z ZS Z Z Z p els (nth 0 l 0%Z))) /\
  (exists x, prepare Z ZS Z Z Z.eqb Z p' (owner_changes (evts ++ [x]) s) = UB).
Proof.
  exists [(Element Z Z Z Z (S_ "D0{K*,pi}") (fun q x => (nth 0 q 0 * x, 0)%Z) [(0, fun p => p)] (fun _ => (1, 0)%Z), [7%Z])], [1%Z], 3%Z, 4%Z.
  eexists. split; [|split; [vm_compute; reflexivity|split]].
  - split; [apply NoDup_cons; [intros []|constructor]|]. intros x a f [<-|[]] [H|[]]. injection H as <- _. cbn. lia.
  - exists [2%Z]. eexists. split; [vm_compute; reflexivity|]. split; [reflexivity|]. vm_compute. discriminate.
  - exists 2%Z. vm_compute. reflexivity.
Qed.
Print Assumptions C32_in_place_refuted.

(** ** C33 *)
Theorem C33_norm_partial : forall (Ev : Type) (wt : Ev -> R) (V : Type) (veqb : V -> V -> bool) (P : Type)
    (els : list (element R Ev V P * list V)) (h : list (act Ev P)) (p0 : P) (c : cplx R) (v : R) (mc : list Ev),
  (forall a b, reflect (a = b) (veqb a b)) -> sound els -> short h -> now_mc h = Some mc ->
  let p := now_p p0 h in
  exists s, run R RS Ev wt V veqb P (h ++ [Prepare]) (p0, start R RS Ev V P els c v) = Ok (p, s) /\
    (m_norm s = Rsum (fun x => wt x * (fst (fresh_sum R RS Ev V P p els x) ^ 2 + snd (fresh_sum R RS Ev V P p els x) ^ 2)) mc / Rsum wt mc)%R /\
    ((forall x, In x mc -> (0 <= wt x)%R) -> (0 < Rsum wt mc)%R -> (0 <= m_norm s)%R).
Proof.
  intros Ev wt V veqb P els h p0 c v mc Hv Hs Hh Hm p. destruct (never_stale R RS Ev wt V veqb P Hv els Hs h p0 c v Hh) as (s & E & _ & H).
  exists s. split; [exact E|]. rewrite Hm in H. destruct H as [_ H]. rewrite H, fresh_norm_mean. split; [reflexivity|]. intros Hw Ht. now apply mean_nonneg.
Qed.
Print Assumptions C33_norm_partial.

Definition r1 : element R R R R := Element R R R R (S_ "D0{K*,pi}") (fun q x => (nth 0 q 0 * x, x)%R) [(0, fun p => p)] (fun p => (p, 1)%R).
Definition r2 : element R R R R := Element R R R R (S_ "D0{rho,K}") (fun q x => (1, x)%R) [] (fun p => (1, p)%R).
Example C33_example : sound [(r1, [0%R]); (r2, [])] /\ short [SetMC [1; 2]%R; SetP 4%R] /\ now_mc (P := R) [SetMC [1; 2]%R; SetP 4%R] = Some [1; 2]%R /\
  (0 < Rsum (fun x => x * x)%R [1; 2]%R)%R.
Proof.
  split; [|split; [|split]].
  - split; [apply NoDup_cons; [intros [H|[]]; discriminate|apply NoDup_cons; [intros []|constructor]]|].
    intros x a f [<-|[<-|[]]] H; [destruct H as [H|[]]; injection H as <- _; cbn; lia|destruct H].
  - intros a [<-|[<-|[]]]; [vm_compute; reflexivity|exact I].
  - reflexivity.
  - cbn. lra.
Qed.

(** ** C34 *)
(** Queueing any requests and flushing computes each of them once, in order, and leaves nothing waiting, for every size of the queue. *)
Theorem C34_queue : forall (K : Type) (o : scalar K) (Ev : Type) (batch : nat) (rs : list (nat * nat * nat)) (g : integrator K Ev) (nm : list (cplx K)),
  0 < batch -> queue g = [] ->
  bind (queue_all K o Ev batch rs g nm) (fun x => flush K o Ev (fst x) (snd x)) = bind (integrate_all K o Ev g rs nm) (fun n => Ok (g, n)) /\
  (NoDup (map (fun x => fst (fst x)) rs) -> (forall r i j, In (r, i, j) rs -> r < List.length nm /\ exists v, integral K o Ev g i j = Ok v) ->
   exists nm', bind (queue_all K o Ev batch rs g nm) (fun x => flush K o Ev (fst x) (snd x)) = Ok (g, nm') /\ List.length nm' = List.length nm /\
     (forall r i j v, In (r, i, j) rs -> integral K o Ev g i j = Ok v -> nth_error nm' r = Some v) /\
     forall r, ~ In r (map (fun x => fst (fst x)) rs) -> nth_error nm' r = nth_error nm r).
Proof.
  intros K o Ev batch rs g nm Hb Hq.
  assert (E : bind (queue_all K o Ev batch rs g nm) (fun x => flush K o Ev (fst x) (snd x)) = bind (integrate_all K o Ev g rs nm) (fun n => Ok (g, n))).
  { rewrite (queue_flush K o Ev batch rs g nm) by (rewrite Hq; exact Hb). rewrite Hq. cbn [app].
    assert (Wq : with_queue K Ev g [] = g) by (rewrite <- Hq; apply wq_id). now rewrite Wq. }
  split; [exact E|]. intros ND H. rewrite E.
  set (F := fun r => match find (fun x => fst (fst x) =? r) rs with Some (_, i, j) => match integral K o Ev g i j with Ok v => v | _ => c0 o end | None => c0 o end).
  assert (Ff : forall r i j, In (r, i, j) rs -> find (fun x : nat * nat * nat => fst (fst x) =? r) rs = Some (r, i, j)).
  { clear - ND. induction rs as [|[[r0 i0] j0] rs IH]; intros r i j Hr; [destruct Hr|]. cbn [map fst] in ND. inversion ND as [|? ? N0 ND']; subst.
    cbn [find fst]. destruct Hr as [Hr|Hr]; [injection Hr as -> -> ->; now rewrite Nat.eqb_refl|]. destruct (Nat.eqb_spec r0 r) as [->|]; [|now apply IH].
    exfalso. apply N0. apply (in_map (fun x : nat * nat * nat => fst (fst x))) in Hr. exact Hr. }
  destruct (integrate_all_ok K o Ev g F rs nm) as (nm' & -> & L & N).
  { intros r i j Hr. destruct (H r i j Hr) as [Hl [v Hv]]. split; [|exact Hl]. unfold F. rewrite (Ff r i j Hr), Hv. reflexivity. }
  exists nm'. split; [reflexivity|]. split; [exact L|]. split.
  - intros r i j v Hr Hv. rewrite N. assert (X : existsb (fun x : nat * nat * nat => fst (fst x) =? r) rs = true) by (apply existsb_exists; exists (r, i, j); split; [exact Hr|apply Nat.eqb_refl]).
    rewrite X. unfold F. rewrite (Ff r i j Hr), Hv. reflexivity.
  - intros r Hr. rewrite N. destruct (existsb (fun x : nat * nat * nat => fst (fst x) =? r) rs) eqn:X; [|reflexivity]. exfalso. apply Hr.
    apply existsb_exists in X. destruct X as (x & Hx & Ex). apply Nat.eqb_eq in Ex. rewrite <- Ex. now apply (in_map (fun x : nat * nat * nat => fst (fst x))).
Qed.
Print Assumptions C34_queue.

(** Eleven requests with the batch size of the code: a full batch of 8 and a rest of 3. *)
Definition g0 : integrator Z Z := Integ Z Z (Some [1; 2]%Z) [3; 1]%Z (Store 2 2 4 [(1, 0); (2, 1); (0, 1); (3, 3); (5, 0); (0, 0); (1, 1); (2, 2)]%Z []) 2%Z [].
Definition reqs : list (nat * nat * nat) := map (fun k => (k, k / 4, k mod 4)) (seq 1 11).
Example C34_example : unroll = 8 /\ NoDup (map (fun x => fst (fst x)) reqs) /\
  (forall r i j, In (r, i, j) reqs -> r < List.length (repeat (0, 0)%Z 16) /\ exists v, integral Z ZS Z g0 i j = Ok v) /\
  match bind (queue_all Z ZS Z unroll reqs g0 (repeat (0, 0)%Z 16)) (fun x => flush Z ZS Z (fst x) (snd x)) with
  | Ok (_, nm) => nth_error nm 8 = Some (7, 0)%Z /\ nth_error nm 11 = Some (7, -8)%Z /\ nth_error nm 12 = Some (0, 0)%Z | _ => False end.
Proof.
  split; [reflexivity|]. split; [|split].
  - cbn. repeat (apply NoDup_cons; [cbn; lia|]). constructor.
  - intros r i j H. cbn in H. repeat (destruct H as [H|H]; [injection H as <- <- <-; split; [cbn; lia|eexists; vm_compute; reflexivity]|]). destruct H.
  - vm_compute. repeat split.
Qed.

(** ** C35 *)
(** [gs]: the groups of amplitudes whose fractions are taken; together they are the normalisation set. *)
Theorem C35_sum : forall (nm g : list (cplx R)) (gs : list (list nat)) (normset : list nat) (N : R),
  List.length nm = List.length g * List.length g -> Forall (Forall (fun i => i < List.length g)) gs -> Permutation normset (List.concat gs) ->
  ff_norm R RS nm g normset = Ok N -> N <> 0%R ->
  exists ffs ifs, Forall2 (fun a v => ff_val R RS nm g normset a a = Ok v) gs ffs /\
    Forall2 (fun ab v => ff_val R RS nm g normset (fst ab) (snd ab) = Ok v) (pairs gs) ifs /\
    (Rsum (fun x => x) ffs + 2 * Rsum (fun x => x) ifs = 1)%R.
Proof.
  intros nm g gs ns N Hn Hg Hp HN N0.
  assert (Hc : Forall (fun i => i < List.length g) (List.concat gs)) by (clear - Hg; induction Hg; cbn [List.concat]; [constructor|]; apply Forall_app; auto).
  assert (Hs : Forall (fun i => i < List.length g) ns) by (rewrite Forall_forall in *; intros i Hi; apply Hc; now apply (Permutation_in i Hp)).
  rewrite (ff_norm_ok nm g Hn ns Hs) in HN. injection HN as HN.
  exists (map (fun a => S2 nm g a a / N)%R gs), (map (fun ab => S2 nm g (fst ab) (snd ab) / N)%R (pairs gs)).
  split; [|split].
  - clear Hp Hc. induction Hg as [|a gs Ha Hg IH]; cbn [map]; constructor; [|assumption]. rewrite (ff_val_ok nm g Hn ns a a Hs Ha Ha). now rewrite HN.
  - clear Hp Hc. assert (Hpr : forall ab, In ab (pairs gs) -> Forall (fun i => i < List.length g) (fst ab) /\ Forall (fun i => i < List.length g) (snd ab)).
    { clear - Hg. induction Hg as [|a gs Ha Hg IH]; cbn [pairs]; intros ab H; [destruct H|]. apply in_app_iff in H. destruct H as [H|H]; [|now apply IH].
      apply in_map_iff in H. destruct H as (b & <- & Hb). cbn [fst snd]. rewrite Forall_forall in Hg. auto. }
    induction (pairs gs) as [|ab l IH]; cbn [map]; constructor; [|apply IH; intros x Hx; apply Hpr; now right].
    destruct (Hpr ab (or_introl eq_refl)) as [Ha Hb]. rewrite (ff_val_ok nm g Hn ns _ _ Hs Ha Hb). now rewrite HN.
  - assert (Dv : forall {A} (f : A -> R) l, Rsum (fun x => x) (map (fun a => f a / N)%R l) = (Rsum f l / N)%R).
    { intros A f. induction l as [|x l IH]; [cbn; unfold Rdiv; ring|]. cbn [map Rsum fold_right]. fold (Rsum (fun x : R => x) (map (fun a => f a / N)%R l)) (Rsum f l).
      rewrite IH. unfold Rdiv. ring. }
    rewrite (Dv _ (fun a => S2 nm g a a)), (Dv _ (fun ab => S2 nm g (fst ab) (snd ab))).
    assert (Pr : Rsum (fun ab => S2 nm g (fst ab) (snd ab)) (pairs gs) = pair_sum (S2 nm g) gs).
    { clear. induction gs as [|a gs IH]; [reflexivity|]. cbn [pairs pair_sum]. rewrite rsum_app, IH. f_equal. clear.
      induction gs as [|b gs IH]; [reflexivity|]. cbn [map Rsum fold_right fst snd]. fold (Rsum (fun ab => S2 nm g (fst ab) (snd ab)) (map (pair a) gs)) (Rsum (S2 nm g a) gs). now rewrite IH. }
    rewrite Pr. pose proof (s2_groups nm g Hn gs Hg) as G. rewrite (s2_perm nm g ns (List.concat gs) ns (List.concat gs) Hp Hp), G in HN. rewrite <- HN in *. field. exact N0.
Qed.
Print Assumptions C35_sum.

Definition nm3 : list (cplx R) := [(1, 0); (0, 1); (1, 1); (0, 0); (2, 0); (0, 3); (0, 0); (0, 0); (5, 0)]%R.
Definition cf3 : list (cplx R) := [(1, 0); (0, 2); (1, 1)]%R.
Example C35_example : List.length nm3 = List.length cf3 * List.length cf3 /\ Forall (Forall (fun i => i < List.length cf3)) [[2; 0]; [1]] /\
  Permutation [0; 1; 2] (List.concat [[2; 0]; [1]]) /\ exists N, ff_norm R RS nm3 cf3 [0; 1; 2] = Ok N /\ N <> 0%R.
Proof.
  split; [reflexivity|]. split; [repeat constructor; cbn; lia|]. split.
  - cbn [List.concat app]. apply Permutation_trans with [2; 0; 1]; [|apply Permutation_refl]. change [0; 1; 2] with ([0; 1] ++ [2]). change [2; 0; 1] with ([2] ++ [0; 1]). apply Permutation_app_comm.
  - eexists. split; [cbn; reflexivity|]. cbn. lra.
Qed.
