From Coq Require Import ZArith Ring Permutation.
From Verif.Common Require Import Prelude.
From Verif.Tensor Require Import Model Spec Proofs ProductProofs Levi LeviProofs.
Local Open Scope nat_scope.

(** ** C26 *)
(** For every list of dimensions, positions below the number of elements and coordinates in range correspond one to one. *)
Theorem C26_bijection : forall dim,
  (forall co, in_range co dim -> exists i, coordinates_to_index co dim = Ok i /\ i < prodn dim /\ index_to_coordinates i dim = Ok co) /\
  (forall i, i < prodn dim -> exists co, index_to_coordinates i dim = Ok co /\ in_range co dim /\ coordinates_to_index co dim = Ok i).
Proof. exact index_bijection. Qed.
Print Assumptions C26_bijection.
Example C26_example : in_range [1; 2; 3] [2; 3; 4] /\ coordinates_to_index [1; 2; 3] [2; 3; 4] = Ok 23 /\
  index_to_coordinates 13 [2; 3; 4] = Ok [1; 0; 1] /\ coordinates_to_index [0; 2; 1] [2; 3; 4] = Ok 9.
Proof. split; [repeat constructor; lia|]. repeat split. Qed.

(** ** C27 *)
(** The product of two indexed tensors, each with at least one index, no index twice on the same tensor, and equal
    dimensions for a repeated index: the indices that are not repeated, in order; each component the sum over all values
    of the repeated indices of the products of components, with the metric for an index that is up on one side and down
    on the other. The full claim has no condition on the number of indices. *)
Theorem C27_product_partial : forall V v0 v1 add mul sub opp (Vring : ring_theory v0 v1 add mul sub opp eq)
  (p1 p2 : proxy V) T1 T2, components V p1 T1 -> components V p2 T2 -> same_dims V p1 p2 -> idx p1 <> [] -> idx p2 <> [] ->
  let F := fun r => mul (T1 (map r (ids (idx p1)))) (T2 (map r (ids (idx p2)))) in
  let rep := repeated (idx p1) (idx p2) (dims (ten p2)) in
  exists r, proxy_mul V v0 v1 add mul opp p1 p2 = Ok r /\
    idx r = filter (not_in (idx p2)) (idx p1) ++ filter (not_in (idx p1)) (idx p2) /\
    (exists T, components V r T) /\
    forall rho, values V p1 rho -> values V p2 rho ->
      values V r rho /\ at_co (ten r) (map rho (ids (idx r))) = Ok (einstein V v0 v1 add mul opp rep rho F).
Proof.
  intros V v0 v1 add mul sub opp Vring p1 p2 T1 T2 C1 C2 SD N1 N2 F rep.
  destruct (product_ok V v0 v1 add mul sub opp Vring p1 p2 T1 T2 C1 C2 SD N1 N2) as (r & E & I & C & K).
  exists r. split; [exact E|]. split; [exact I|]. split; [eexists; exact C|exact K].
Qed.
Print Assumptions C27_product_partial.

(** M^{a}_{b} v^{b} with M = diag(1,2,3,4) plus an entry, indices b up on one side and down on the other. *)
Definition ex_m : tensor Z := Tensor [4; 4] [1; 0; 0; 5;  0; 2; 0; 0;  0; 0; 3; 0;  7; 0; 0; 4]%Z (seq 0 16).
Definition ex_v : tensor Z := Tensor [4] [10; 20; 30; 40]%Z (seq 0 4).
Definition ex_p := Proxy ex_m [(100, false); (101, false)].
Definition ex_q := Proxy ex_v [(101, true)].
Definition ex_at {V} (d : V) (t : tensor V) (co : list nat) : V := match at_co t co with Ok v => v | _ => d end.
Lemma in_range_cons_inv co d ds : in_range co (d :: ds) -> exists c co', co = c :: co' /\ c < d /\ in_range co' ds.
Proof. intro H. inversion H as [|c ? co' ? Hc Hr]; subst. eauto. Qed.
Example C27_example : components Z ex_p (ex_at 0%Z ex_m) /\ components Z ex_q (ex_at 0%Z ex_v) /\ same_dims Z ex_p ex_q /\
  exists r, proxy_mul Z 0%Z 1%Z Z.add Z.mul Z.opp ex_p ex_q = Ok r /\ idx r = [(100, false)] /\
    elems (ten r) = [190; -40; -90; 90]%Z.
Proof.
  assert (N : forall n, n < 4 -> n = 0 \/ n = 1 \/ n = 2 \/ n = 3) by (intros; lia).
  split; [|split; [|split]].
  - split; [reflexivity|]. split; [repeat constructor; cbn; intuition discriminate|]. split; [repeat constructor; cbn; lia|].
    intros co H. apply in_range_cons_inv in H as (a & co' & -> & Ha & H). apply in_range_cons_inv in H as (b & co & -> & Hb & H).
    inversion H. apply N in Ha, Hb. destruct Ha as [-> |[-> |[-> | ->]]], Hb as [-> |[-> |[-> | ->]]]; reflexivity.
  - split; [reflexivity|]. split; [repeat constructor; cbn; intuition discriminate|]. split; [repeat constructor; cbn; lia|].
    intros co H. apply in_range_cons_inv in H as (a & co' & -> & Ha & H).
    inversion H. apply N in Ha. destruct Ha as [-> |[-> |[-> | ->]]]; reflexivity.
  - intros x d1 d2 H1 H2. cbn in H1, H2. destruct H2 as [H2|[]]. injection H2 as <- <-.
    destruct H1 as [H1|[H1|[]]]; injection H1; congruence.
  - eexists. split; [vm_compute; reflexivity|]. split; reflexivity.
Qed.
(** A factor without any index (a scalar as an indexed tensor, for instance the full contraction of an earlier product):
    the do-while loop that fills the coordinates writes into an empty vector. *)
Theorem C27_scalar_refuted : exists (p1 p2 : proxy Z) T1 T2, components Z p1 T1 /\ components Z p2 T2 /\ same_dims Z p1 p2 /\
  (exists a b, proxy_mul Z 0%Z 1%Z Z.add Z.mul Z.opp a b = Ok p1) /\
  proxy_mul Z 0%Z 1%Z Z.add Z.mul Z.opp p1 p2 = UB.
Proof.
  destruct C27_example as (_ & Cq & _).
  exists (Proxy (Tensor [] [-600 + 800 - 600 + 800 - 200]%Z [0]) []), ex_q, (ex_at 0%Z (Tensor [] [200]%Z [0])), (ex_at 0%Z ex_v).
  split; [|split; [exact Cq|split; [|split]]].
  - split; [reflexivity|]. split; [constructor|]. split; [constructor|]. intros co H. inversion H. reflexivity.
  - intros x d1 d2 [].
  - exists ex_q, (Proxy ex_v [(101, false)]). vm_compute. reflexivity.
  - reflexivity.
Qed.
Print Assumptions C27_scalar_refuted.

(** ** C28 *)
Lemma fits_7 n : n <= 7 -> fits n.
Proof.
  intro H. assert (C : n = 0 \/ n = 1 \/ n = 2 \/ n = 3 \/ n = 4 \/ n = 5 \/ n = 6 \/ n = 7) by lia.
  unfold fits. destruct C as [-> |[-> |[-> |[-> |[-> |[-> |[-> | ->]]]]]]]; vm_compute; discriminate.
Qed.
(** Ranks 1 to 7: 0 when a coordinate occurs twice, the sign flips when two coordinates are exchanged, and the component
    of 0, 1, ..., n-1 is 1, which fixes every component. The full claim has no bound on the rank. *)
Theorem C28_antisymmetric_partial : forall n, 0 < n -> n <= 7 -> exists t, levi_civita n = Ok t /\ dims t = repeat n n /\
  (forall co, in_range co (repeat n n) -> ~ NoDup co -> at_co t co = Ok 0%Z) /\
  (forall a x b y c, in_range (a ++ x :: b ++ y :: c) (repeat n n) -> in_range (a ++ y :: b ++ x :: c) (repeat n n) ->
     exists v, at_co t (a ++ x :: b ++ y :: c) = Ok v /\ at_co t (a ++ y :: b ++ x :: c) = Ok (- v)%Z) /\
  (forall co, in_range co (repeat n n) -> NoDup co -> at_co t co = Ok 1%Z \/ at_co t co = Ok (-1)%Z) /\
  at_co t (seq 0 n) = Ok 1%Z.
Proof.
  intros n Hn H7. pose proof (fits_7 n H7) as Ft. destruct (levi_ok n Hn Ft) as (t & E & D & K).
  exists t. split; [exact E|]. split; [exact D|]. split; [|split; [|split]].
  - intros co R N. rewrite (K co R), eps_dup by exact N. reflexivity.
  - intros a x b y c R R'. eexists. split; [exact (K _ R)|]. rewrite (K _ R'), (eps_swap n a y b x c). reflexivity.
  - intros co R N. rewrite (K co R). unfold eps. pose proof (p0_nonzero n).
    assert (W : vander co <> 0%Z) by (intro X; apply vander_zero in X; contradiction).
    destruct (vander co) as [|p|p], (vander (seq 0 n)) as [|q|q]; try congruence; auto.
  - rewrite K by (apply perm_in_range, Permutation_refl). now rewrite eps_id.
Qed.
Print Assumptions C28_antisymmetric_partial.
Example C28_example : exists t, levi_civita 4 = Ok t /\ at_co t [0; 1; 2; 3] = Ok 1%Z /\ at_co t [0; 2; 1; 3] = Ok (-1)%Z /\
  at_co t [3; 0; 1; 2] = Ok (-1)%Z /\ at_co t [1; 1; 2; 3] = Ok 0%Z.
Proof. eexists. split; [vm_compute; reflexivity|]. repeat split. Qed.
(** From rank 8 on the product of all differences of coordinates leaves the range of [int] (125411328000 for rank 8):
    undefined behaviour; with the usual wrap-around the components are not signs. *)
Theorem C28_overflow_refuted : exists n, 0 < n /\ levi_civita n = UB.
Proof. exists 8. split; [lia|]. vm_compute. reflexivity. Qed.
Print Assumptions C28_overflow_refuted.
