(** Supporting lemmas. *)
From Verif.Common Require Import Prelude.
From Coq Require Import Reals Lra.
From Coquelicot Require Import Hierarchy Complex.
From Verif.Store Require Import Model Proofs.
From Verif.Evaluators Require Import Model Spec.
Local Open Scope C_scope.
Local Notation LC := (list C).

Lemma cmod2 (a : C) : (Cmod a ^ 2 = Re a * Re a + Im a * Im a)%R.
Proof. unfold Cmod, Re, Im. rewrite pow2_sqrt; [ring|]. nra. Qed.
Lemma norm_cmod z : norm z = (Cmod z ^ 2)%R.
Proof. now rewrite cmod2. Qed.

Section Cache.
  Variables (al : layout) (w : nat).
  Local Notation addall := (fold_left (fun s f => add_functor LC (fst f) (snd f) s)).
  Lemma registered : forall els s, NoDup (map name els) -> (forall e, In e els -> lookup (name e) (names s) = None) ->
    let s' := addall (map (fun e => (name e, 1%nat)) els) s in
    n_fields s' = (n_fields s + List.length els)%nat /\ cells s' = cells s /\
    forall j e, nth_error els j = Some e -> lookup (name e) (names s') = Some ((n_fields s + j)%nat :: nil).
  Proof.
    induction els as [|e els IH]; intros s ND F; cbv zeta.
    - cbn [map fold_left List.length]. split; [lia|]. split; [reflexivity|]. intros [|j] e H; discriminate H.
    - cbn [map fold_left fst snd]. inversion ND as [|? ? N1 N2]; subst.
      assert (E : add_functor LC (name e) 1 s = Store (n_entries s) (n_blocks s) (n_fields s + 1) (cells s) ((name e, seq (n_fields s) 1) :: names s)).
      { unfold add_functor. now rewrite (F e (or_introl eq_refl)). }
      rewrite E. destruct (IH (Store (n_entries s) (n_blocks s) (n_fields s + 1) (cells s) ((name e, seq (n_fields s) 1) :: names s)) N2) as (A & B & K).
      { intros e' He'. cbn [names lookup]. destruct (str_eqb_spec (name e) (name e')) as [Eq|Ne].
        - exfalso. apply N1. rewrite Eq. now apply in_map.
        - apply F. now right. }
      cbn [n_fields cells List.length] in *. split; [rewrite A; lia|]. split; [exact B|].
      intros [|j] e' He'; cbn [nth_error] in He'.
      + injection He' as <-. rewrite Nat.add_0_r. apply (addall_keeps LC). cbn [names lookup]. rewrite str_eqb_refl. reflexivity.
      + rewrite (K j e' He'). f_equal. f_equal. lia.
  Qed.
  Lemma updates_ok : forall els base s, sized LC s ->
    (forall j e, nth_error els j = Some e -> lookup (name e) (names s) = Some ((base + j)%nat :: nil)) ->
    (base + List.length els <= n_fields s)%nat ->
    exists s', updates al w els s = Ok s' /\ sized LC s' /\ n_blocks s' = n_blocks s /\ n_fields s' = n_fields s /\
      (forall b j e, (b < n_blocks s)%nat -> nth_error els j = Some e -> read LC al s' b (base + j) = Ok (lanes w e b)) /\
      (forall b f, (b < n_blocks s)%nat -> (f < base)%nat -> read LC al s' b f = read LC al s b f).
  Proof.
    induction els as [|e els IH]; intros base s S L B.
    - exists s. cbn [updates]. repeat split; auto. intros b [|j] e _ H; discriminate H.
    - cbn [updates List.length] in *. unfold update. rewrite (L 0%nat e eq_refl). cbn [of_opt bind]. rewrite Nat.add_0_r in *.
      destruct (update_loop_ok LC al (fun b => lanes w e b :: nil) (base :: nil)) with (evts := seq 0 (n_blocks s)) (s := s)
        as (s1 & E1 & S1 & B1 & F1 & N1 & K1 & O1).
      { repeat constructor. intros []. } { reflexivity. } { exact S. } { intros b Hb. apply in_seq in Hb. lia. }
      { intros g [<-|[]]. lia. }
      rewrite E1. cbn [bind]. destruct (IH (Datatypes.S base) s1 S1) as (s2 & E2 & S2 & B2 & F2 & K2 & O2).
      { intros j e' H. rewrite N1, (L (Datatypes.S j) e' H). f_equal. f_equal. lia. } { rewrite F1. lia. }
      exists s2. split; [exact E2|]. split; [exact S2|]. split; [congruence|]. split; [congruence|]. split.
      + intros b [|j] e' Hb H; cbn [nth_error] in H.
        * injection H as <-. rewrite Nat.add_0_r, O2 by (try rewrite B1; lia).
          apply (K1 b 0%nat base); [apply in_seq; lia|reflexivity|reflexivity].
        * replace (base + Datatypes.S j)%nat with (Datatypes.S base + j)%nat by lia. apply K2; [now rewrite B1|exact H].
      + intros b f Hb Hf. rewrite O2 by (try rewrite B1; lia). apply O1; [exact Hb|lia|]. right. intros [X|[]]. lia.
  Qed.
  Lemma cache_ok n els : NoDup (map name els) -> exists s, cache al w n els = Ok s /\ n_blocks s = blocks w n /\
    forall b j e, (b < blocks w n)%nat -> nth_error els j = Some e -> read LC al s b j = Ok (lanes w e b).
  Proof.
    intro ND. unfold cache, allocate.
    destruct (registered els (construct LC (zeros w) w 0 0) ND) as (F & _ & K); [reflexivity|].
    set (s0 := fold_left _ _ _) in *. cbn [construct n_fields] in F, K. rewrite Nat.add_0_l in F.
    destruct (updates_ok els 0%nat (resize LC (zeros w) w n s0)) as (s & E & _ & B & _ & R & _).
    - unfold sized, resize. cbn [cells n_blocks n_fields]. apply vresize_length.
    - intros j e H. cbn [resize names]. apply K. exact H.
    - cbn [resize n_fields]. lia.
    - exists s. split; [exact E|]. cbn [resize n_blocks] in *. split; [exact B|]. intros b j e Hb H. exact (R b j e Hb H).
  Qed.
End Cache.

(** ** Blocks *)
Lemma lanes_length w e b : List.length (lanes w e b) = w.
Proof. unfold lanes. now rewrite map_length, seq_length. Qed.
Lemma lanes_at w e b k : (k < w)%nat -> nth_error (lanes w e b) k = Some (value e (b * w + k)%nat).
Proof. intro H. unfold lanes. rewrite nth_error_map, (nth_error_nth' _ 0%nat) by (now rewrite seq_length). cbn [option_map]. now rewrite seq_nth. Qed.
Lemma vadd_map (f g : nat -> C) l : vadd (map f l) (map g l) = map (fun k => f k + g k) l.
Proof. unfold vadd. induction l as [|x l IH]; [reflexivity|]. cbn [map combine fst snd]. now rewrite IH. Qed.
Lemma radd_map (f g : nat -> R) l : map (fun p => (fst p + snd p)%R) (combine (map f l) (map g l)) = map (fun k => (f k + g k)%R) l.
Proof. induction l as [|x l IH]; [reflexivity|]. cbn [map combine fst snd]. now rewrite IH. Qed.
Lemma repeat_map {A} (a : A) w : repeat a w = map (fun _ => a) (seq 0 w).
Proof. generalize 0%nat. induction w as [|w IH]; intro o; [reflexivity|]. cbn [repeat seq map]. now rewrite (IH (S o)). Qed.
Lemma block_amp_ok w s b : forall els j f, (forall i e, nth_error els i = Some e -> read LC AoS s b (j + i) = Ok (lanes w e b)) ->
  block_amp s b j els (map f (seq 0 w)) = Ok (map (fun k => f k + amplitude els (b * w + k)%nat) (seq 0 w)).
Proof.
  induction els as [|e els IH]; intros j f H.
  - cbn [block_amp amplitude fold_right]. f_equal. apply map_ext. intro k. ring.
  - cbn [block_amp]. rewrite <- (Nat.add_0_r j) at 1. rewrite (H 0%nat e eq_refl). cbn [bind]. unfold lanes, vscale.
    rewrite map_map, vadd_map, (IH (S j)).
    + f_equal. apply map_ext. intro k. cbn [amplitude fold_right]. fold (amplitude els (b * w + k)%nat). ring.
    + intros i e' Hi. replace (S j + i)%nat with (j + S i)%nat by lia. exact (H (S i) e' Hi).
Qed.
Lemma block_norm_ok w s b : forall els j f, (forall i e, nth_error els i = Some e -> read LC AoS s b (j + i) = Ok (lanes w e b)) ->
  block_norm s b j els (map f (seq 0 w)) = Ok (map (fun k => (f k + sumR (rates els (b * w + k)))%R) (seq 0 w)).
Proof.
  induction els as [|e els IH]; intros j f H.
  - cbn [block_norm rates sumR map fold_right]. f_equal. apply map_ext. intro k. ring.
  - cbn [block_norm]. rewrite <- (Nat.add_0_r j) at 1. rewrite (H 0%nat e eq_refl). cbn [bind]. unfold lanes, vscale.
    rewrite !map_map, radd_map, (IH (S j)).
    + f_equal. apply map_ext. intro k. change (sumR (rates (e :: els) (b * w + k))) with (Cmod (coefficient e * value e (b * w + k)%nat)%C ^ 2 + sumR (rates els (b * w + k)))%R. rewrite norm_cmod. ring.
    + intros i e' Hi. replace (S j + i)%nat with (j + S i)%nat by lia. exact (H (S i) e' Hi).
Qed.
Lemma over_blocks_at {A} w (F : nat -> A) f : forall n o, (forall b, (o <= b < o + n)%nat -> f b = Ok (map (fun k => F (b * w + k)%nat) (seq 0 w))) ->
  over_blocks (seq o n) f = Ok (map (fun i => F (o * w + i)%nat) (seq 0 (n * w))).
Proof.
  induction n as [|n IH]; intros o H; [reflexivity|]. cbn [seq over_blocks]. rewrite (H o) by lia. cbn [bind].
  rewrite (IH (S o)) by (intros b Hb; apply H; lia). cbn [bind]. f_equal. cbn [Nat.mul]. rewrite seq_app, map_app. f_equal.
  replace (0 + w)%nat with (w + 0)%nat by lia. 
  assert (G : forall m a c (g : nat -> A), map g (seq (a + c) m) = map (fun i => g (a + i)%nat) (seq c m)).
  { induction m as [|m IHm]; intros a c g; [reflexivity|]. cbn [seq map]. f_equal. replace (S (a + c)) with (a + S c)%nat by lia. apply IHm. }
  rewrite G. apply map_ext. intro i. f_equal. lia.
Qed.
Lemma values_at {A} (F : nat -> A) m i : (i < m)%nat -> arrayToFunctor (map F (seq 0 m)) i = Ok (F i).
Proof.
  intro H. unfold arrayToFunctor. rewrite nth_error_map, (nth_error_nth' _ 0%nat) by (now rewrite seq_length). cbn [option_map of_opt].
  now rewrite seq_nth.
Qed.
Lemma within w n i : (0 < w)%nat -> (N.of_nat n < 4294967296)%N -> (i < n)%nat -> (i < blocks w n * w)%nat.
Proof. intros H1 H2 H3. pose proof (blocks_hold w n i H1 H2 H3). pose proof (Nat.div_mod i w ltac:(lia)). pose proof (Nat.mod_upper_bound i w ltac:(lia)). nia. Qed.

(** ** Components *)
Lemma get_ok w n els s i j e : (0 < w)%nat -> (N.of_nat n < 4294967296)%N -> (i < n)%nat ->
  (forall b j e, (b < blocks w n)%nat -> nth_error els j = Some e -> read LC SoA s b j = Ok (lanes w e b)) ->
  nth_error els j = Some e -> get SoA w s i j = Ok (value e i).
Proof.
  intros W H32 Hi R Hj. unfold get. rewrite (R _ _ _ (blocks_hold w n i W H32 Hi) Hj). cbn [bind].
  rewrite lanes_at by (apply Nat.mod_upper_bound; lia). cbn [of_opt]. f_equal. f_equal.
  pose proof (Nat.div_mod i w ltac:(lia)). lia.
Qed.
Definition cross (a b : element) (k : nat) : R := Re (coefficient a * value a k * Cconj (coefficient b * value b k)).
Lemma cross_sum a k : forall els, sumR (map (fun b => cross a b k) els) = Re (coefficient a * value a k * Cconj (amplitude els k)).
Proof.
  induction els as [|e els IH]; cbn [map sumR fold_right amplitude]; [unfold Cconj, Re; cbn; ring|].
  fold (sumR (map (fun b => cross a b k) els)) (amplitude els k). rewrite IH. unfold cross.
  replace (Cconj (coefficient e * value e k + amplitude els k)) with (Cconj (coefficient e * value e k) + Cconj (amplitude els k)).
  - unfold Re. cbn. ring.
  - apply injective_projections; cbn; ring.
Qed.
Definition tail_row (a : element) (k : nat) (els : list element) : list R := map (fun b => (2 * cross a b k)%R) els.
Fixpoint all_rows (k : nat) (els : list element) : list R :=
  match els with [] => [] | e :: els' => (cross e e k :: tail_row e k els') ++ all_rows k els' end.
Lemma sumR_app a b : sumR (a ++ b) = (sumR a + sumR b)%R.
Proof. induction a as [|x a IH]; cbn [sumR fold_right app]; [fold (sumR b); ring|]. fold (sumR (a ++ b)) (sumR a). rewrite IH. ring. Qed.
Lemma sumR_scale c l : sumR (map (fun x => (c * x)%R) l) = (c * sumR l)%R.
Proof. induction l as [|x l IH]; cbn [sumR map fold_right]; [ring|]. fold (sumR (map (fun x => (c * x)%R) l)) (sumR l). rewrite IH. ring. Qed.
Lemma rows_sum k : forall els, sumR (all_rows k els) = (Cmod (amplitude els k) ^ 2)%R.
Proof.
  induction els as [|e els IH]; [cbn [all_rows sumR fold_right amplitude]; rewrite cmod2; cbn; ring|].
  cbn [all_rows]. rewrite sumR_app, IH. cbn [sumR fold_right]. fold (sumR (tail_row e k els)).
  unfold tail_row. rewrite <- (map_map (fun b => cross e b k) (fun x => (2 * x)%R)), sumR_scale, cross_sum, !cmod2.
  cbn [amplitude fold_right]. fold (amplitude els k). unfold cross, Re, Im. cbn. ring.
Qed.
Lemma all_values_app {A} (a b : list (res A)) x y : all_values a = Ok x -> all_values b = Ok y -> all_values (a ++ b) = Ok (x ++ y).
Proof.
  revert x. induction a as [|r a IH]; intros x Ha Hb; cbn [all_values app] in *; [injection Ha as <-; exact Hb|].
  destruct r as [v| | |]; cbn [bind] in *; try discriminate Ha. destruct (all_values a) as [vs| | |]; cbn [bind] in *; try discriminate Ha.
  injection Ha as <-. rewrite (IH vs eq_refl Hb). reflexivity.
Qed.
Lemma all_rows_length k : forall els, (2 * List.length (all_rows k els) = List.length els * (List.length els + 1))%nat.
Proof. induction els as [|e els IH]; [reflexivity|]. cbn [all_rows]. rewrite app_length. cbn [List.length]. unfold tail_row. rewrite map_length. lia. Qed.
Lemma row_ok w s (a : element) k i : forall els j, (i < j)%nat ->
  get SoA w s k i = Ok (value a k) -> (forall m e, nth_error els m = Some e -> get SoA w s k (j + m) = Ok (value e k)) ->
  all_values (row w s (coefficient a) i j k els) = Ok (tail_row a k els).
Proof.
  induction els as [|e els IH]; intros j Lt Ga Ge; [reflexivity|]. cbn [row all_values]. unfold pair_value at 1.
  pose proof (Ge 0%nat e eq_refl) as G0. rewrite Nat.add_0_r in G0. rewrite Ga, G0. cbn [bind].
  rewrite (IH (S j)); [|lia|exact Ga|intros m e' Hm; replace (S j + m)%nat with (j + S m)%nat by lia; exact (Ge (S m) e' Hm)].
  cbn [bind tail_row map]. destruct (Nat.eqb_spec i j) as [X|X]; [lia|reflexivity].
Qed.
Lemma rows_ok w s k : forall els i, (forall m e, nth_error els m = Some e -> get SoA w s k (i + m) = Ok (value e k)) ->
  all_values (rows w s i k els) = Ok (all_rows k els).
Proof.
  induction els as [|e els IH]; intros i G; [reflexivity|]. cbn [rows all_rows]. apply all_values_app.
  - pose proof (G 0%nat e eq_refl) as G0. rewrite Nat.add_0_r in G0. cbn [row all_values]. unfold pair_value at 1. rewrite G0. cbn [bind].
    rewrite (row_ok w s e k i); [|lia|exact G0|intros m e' Hm; replace (S i + m)%nat with (i + S m)%nat by lia; exact (G (S m) e' Hm)].
    cbn [bind]. rewrite Nat.eqb_refl. rewrite Rmult_1_l. reflexivity.
  - apply IH. intros m e' Hm. replace (S i + m)%nat with (i + S m)%nat by lia. exact (G (S m) e' Hm).
Qed.
Lemma singles_ok w s k : forall els i, (forall m e, nth_error els m = Some e -> get SoA w s k (i + m) = Ok (value e k)) ->
  all_values (singles w s i k els) = Ok (rates els k).
Proof.
  induction els as [|e els IH]; intros i G; [reflexivity|]. cbn [singles all_values].
  pose proof (G 0%nat e eq_refl) as G0. rewrite Nat.add_0_r in G0. rewrite G0. cbn [bind]. rewrite (IH (S i)); [|intros m e' Hm; replace (S i + m)%nat with (i + S m)%nat by lia; exact (G (S m) e' Hm)].
  cbn [bind rates map]. now rewrite norm_cmod.
Qed.

(** ** Sums *)
Lemma add_pdf_ok (F : nat -> R) eval : forall is f, (forall i, In i is -> eval i = Ok (F i)) ->
  add_pdf is eval (map f is) = Ok (map (fun i => (f i + F i)%R) is).
Proof.
  induction is as [|i is IH]; intros f H; [reflexivity|]. cbn [map add_pdf]. rewrite (H i) by now left. cbn [bind].
  rewrite IH by (intros; apply H; now right). reflexivity.
Qed.
Lemma add_pdfs_ok is : forall (Fs : list (nat -> R)) pdfs f, Forall2 (fun F p => forall i, In i is -> p i = Ok (F i)) Fs pdfs ->
  add_pdfs is pdfs (map f is) = Ok (map (fun i => (f i + sumR (map (fun F => F i) Fs))%R) is).
Proof.
  intros Fs pdfs f H. revert f. induction H as [|F p Fs pdfs Hp _ IH]; intro f.
  - cbn [add_pdfs map sumR fold_right]. f_equal. apply map_ext. intro. ring.
  - cbn [add_pdfs]. rewrite (add_pdf_ok F p) by exact Hp. cbn [bind]. rewrite IH. f_equal. apply map_ext. intro i.
    cbn [map sumR fold_right]. fold (sumR (map (fun F => F i) Fs)). ring.
Qed.
