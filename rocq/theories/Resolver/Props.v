From Verif.Common Require Import Prelude.
From Verif.Resolver Require Import Model Spec Proofs CacheProofs.

(** ** C23 *)
(** The list of definitions placed before the body of a compiled function: every key that occurs once, each only using
    earlier ones, for every nesting and sharing. The full claim is for every expression; proved when an inner expression is
    wrapped by one node only and equal keys mean equal dependencies. The loop ends within one turn more than the nesting depth. *)
Theorem C23_order_partial : forall e, one_node_per_address e -> no_collision e ->
  forall fuel, list_max (map height e) < fuel -> exists l, ordered fuel e = Ok l /\ good_order e l.
Proof. exact ordered_good. Qed.
Print Assumptions C23_order_partial.

(** A body using a (key 5) and b (key 1); a uses b and c (key 9); b uses c; c uses d (key 3): sharing, and keys and
    addresses in no particular order. *)
Definition dag_d := Sub 40 3 [].
Definition dag_c := Sub 10 9 [dag_d].
Definition dag_b := Sub 30 1 [dag_c].
Definition dag_a := Sub 20 5 [dag_b; dag_c].
Definition dag := [dag_b; dag_a].
Definition dag_nodes := [dag_a; dag_b; dag_c; dag_d].
Lemma dag_occurs s : occurs dag s -> In s dag_nodes.
Proof.
  assert (G : forall l s, occurs l s -> (forall x, In x l -> In x dag_nodes) -> In s dag_nodes).
  { induction 1 as [l x Hi|l p k l' x Hi Ho IH]; intro H; [auto|]. apply IH. apply H in Hi.
    destruct Hi as [E|[E|[E|[E|[]]]]]; injection E as <- <- <-; intros y Hy; cbn [In] in *; unfold dag_nodes; cbn [In]; tauto. }
  intro H. apply (G dag s H). intros x Hx. cbn [dag In] in Hx. unfold dag_nodes. cbn [In]. tauto.
Qed.
Example C23_example : one_node_per_address dag /\ no_collision dag /\
  (exists l, ordered 9 dag = Ok l /\ map fst l = [3; 9; 1; 5]).
Proof.
  split; [|split].
  - intros s s' H H' E. apply dag_occurs in H, H'.
    destruct H as [<-|[<-|[<-|[<-|[]]]]], H' as [<-|[<-|[<-|[<-|[]]]]]; try reflexivity; discriminate E.
  - intros s s' H H' E. apply dag_occurs in H, H'.
    destruct H as [<-|[<-|[<-|[<-|[]]]]], H' as [<-|[<-|[<-|[<-|[]]]]]; try (intro k; reflexivity); discriminate E.
  - eexists. split; [vm_compute; reflexivity|reflexivity].
Qed.
(** Two nodes around the same inner expression but with different keys (one made with [make_cse(e)] and one with
    [make_cse(e, true)]): the second key is used by the body and never defined, so the generated source does not
    compile. *)
Theorem C23_two_wrappers_refuted : exists e, no_collision e /\ (exists s, occurs e s /\ key_of s = 8) /\
  exists l, ordered 9 e = Ok l /\ ~ In 8 (map fst l).
Proof.
  exists [Sub 1 7 []; Sub 1 8 []]. split; [|split].
  - assert (G : forall s, occurs [Sub 1 7 []; Sub 1 8 []] s -> inner_of s = []).
    { intros s H. inversion H as [? ? Hi|? ? ? ? ? Hi Ho]; subst.
      - destruct Hi as [<-|[<-|[]]]; reflexivity.
      - destruct Hi as [E|[E|[]]]; injection E as _ _ <-; inversion Ho as [? ? Hi'|? ? ? ? ? Hi']; destruct Hi'. }
    intros s s' H H' _ k. now rewrite (G s H), (G s' H').
  - exists (Sub 1 8 []). split; [constructor; right; now left|reflexivity].
  - eexists. split; [vm_compute; reflexivity|]. cbn. intuition discriminate.
Qed.
Print Assumptions C23_two_wrappers_refuted.

(** ** C24 *)
(** Every name handed an address has one range: the address it got, always the same; ranges of different names are
    disjoint; all lie below the number of parameters. With sizes that only depend on the name, the range has the
    size asked for. *)
Theorem C24_ranges : forall l given c, register l empty_cache = (given, c) ->
  forall n a s, In (n, a, s) given -> exists len, find_entry n (entries c) = Some (a, len) /\ a + len <= n_params c /\
  (forall b t, In (n, b, t) given -> b = a) /\
  (forall n' a' s', In (n', a', s') given -> n' <> n -> exists len', find_entry n' (entries c) = Some (a', len') /\
     disjoint_ranges a len a' len').
Proof.
  intros l given c E n a s H. destruct (register_spec _ _ _ _ sound_empty E) as ([B D] & _ & _ & G).
  destruct (G _ _ _ H) as (len & F). exists len. split; [assumption|]. split; [now apply (B n)|]. split.
  - intros b t Hb. destruct (G _ _ _ Hb) as (len' & F'). congruence.
  - intros n' a' s' H' N. destruct (G _ _ _ H') as (len' & F'). exists len'. split; [assumption|]. apply (D n _ _ n' _ _ F F'). congruence.
Qed.
Print Assumptions C24_ranges.
Theorem C24_sizes_partial : forall size l given c, register l empty_cache = (given, c) ->
  (forall n a s, In (n, a, s) given -> s = size n) ->
  forall n a s, In (n, a, s) given -> find_entry n (entries c) = Some (a, s).
Proof.
  intros size l given c E Hg n a s H. destruct (register_spec _ _ _ _ sound_empty E) as (_ & _ & _ & G).
  destruct (G _ _ _ H) as (len & F). rewrite F. pose proof (register_sizes size _ _ _ _ sound_empty ltac:(discriminate) E Hg _ _ F) as X.
  cbn [snd] in X. rewrite X, <- (Hg _ _ _ H). reflexivity.
Qed.
Print Assumptions C24_sizes_partial.
(** Every function object has a cell of its own, when no parameter is called lxpr_... *)
Theorem C24_function_objects : forall l given c, Forall (fun r => match r with Named n _ => plain n | Lambda => True end) l ->
  register l empty_cache = (given, c) ->
  forall i j, i < j -> nth_error l i = Some Lambda -> nth_error l j = Some Lambda ->
  exists a b, nth_error (map (fun g => snd (fst g)) given) i = Some a /\ nth_error (map (fun g => snd (fst g)) given) j = Some b /\ a < b.
Proof.
  intros l given c Hp E. apply (register_lambdas l empty_cache given c); [exact sound_empty| |exact Hp|exact E].
  intros t v H. discriminate H.
Qed.
Print Assumptions C24_function_objects.
Example C24_example : register [Named (S_ "mass") 1; Named (S_ "shape") 6; Lambda; Named (S_ "mass") 1; Lambda] empty_cache =
  ([(S_ "mass", 0, 1); (S_ "shape", 1, 6); (S_ "lxpr_7", 7, 1); (S_ "mass", 0, 1); (S_ "lxpr_8", 8, 1)],
   Cache [(S_ "mass", (0, 1)); (S_ "shape", (1, 6)); (S_ "lxpr_7", (7, 1)); (S_ "lxpr_8", (8, 1))] 9).
Proof. reflexivity. Qed.
(** A spline whose name is already that of a parameter gets the single cell of the parameter: the cells it uses run into
    those of the next name and past the end. *)
Theorem C24_spline_refuted : exists l given c n a s n' a' s', register l empty_cache = (given, c) /\
  In (n, a, s) given /\ In (n', a', s') given /\ n <> n' /\ ~ disjoint_ranges a s a' s' /\ n_params c < a + s.
Proof.
  exists [Named (S_ "rho") 1; Named (S_ "width") 1; Named (S_ "rho") 6]. eexists _, _, (S_ "rho"), 0, 6, (S_ "width"), 1, 1.
  split; [vm_compute; reflexivity|]. split; [right; right; now left|]. split; [right; now left|]. split; [discriminate|]. split.
  - intro H. apply (H 1). lia.
  - cbn [n_params]. lia.
Qed.
Print Assumptions C24_spline_refuted.
