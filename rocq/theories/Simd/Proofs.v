From Verif.Common Require Import Prelude Writes.
From Coq Require Import Reals Lra Lia.
From Verif.Store Require Import Model Spec Proofs.
From Verif.Simd Require Import Model Spec.
Local Open Scope R_scope.

Lemma each_ok {A B} (f : A -> res B) (g : A -> B) l : (forall x, In x l -> f x = Ok (g x)) -> each f l = Ok (map g l).
Proof.
  induction l as [| x l IH]; cbn; intro H; [reflexivity|]. rewrite (H x (or_introl eq_refl)). cbn. rewrite IH by (intros y Hy; apply H; right; exact Hy). reflexivity.
Qed.
Lemma of_nth {A} (l : list A) i x : nth_error l i = Some x -> of_opt (nth_error l i) = Ok x.
Proof. intros ->. reflexivity. Qed.
Lemma nth_error_map_seq {A} (g : nat -> A) a n k : (k < n)%nat -> nth_error (map g (seq a n)) k = Some (g (a + k)%nat).
Proof.
  intro H. rewrite nth_error_map. rewrite (nth_error_nth' (seq a n) 0%nat) by (rewrite seq_length; exact H). cbn. rewrite seq_nth by exact H. reflexivity.
Qed.

Section P.
  Variable w : nat.
  Hypothesis w0 : (0 < w)%nat.
  Definition value (j : nat) (e : event) : R := List.nth j (values e) 0.
  Definition lanes (g : event -> R) (E : nat -> event) : list R := map (fun k => g (E k)) (seq 0 w).
  Definition holds (s : simd) (b : nat) (E : nat -> event) : Prop :=
    (forall j, (j < n_fields (data s))%nat -> read (list R) AoS (data s) b j = Ok (lanes (value j) E)) /\
    nth_error (weights s) b = Some (lanes weight E) /\ nth_error (gens s) b = Some (lanes genPdf E).
  Definition dims (n nf : nat) (s : simd) : Prop :=
    n_entries (data s) = n /\ n_blocks (data s) = blocks w n /\ n_fields (data s) = nf /\ sized (list R) (data s) /\
    (blocks w n <= List.length (weights s))%nat /\ (blocks w n <= List.length (gens s))%nat.
  Lemma lane_lanes g E k : (k < w)%nat -> lane k (lanes g E) = Ok (g (E k)).
  Proof. intro H. unfold lane, lanes. rewrite (nth_error_map_seq _ 0 w k H). reflexivity. Qed.
  Lemma lanes_ext g E E' : (forall k, (k < w)%nat -> E k = E' k) -> lanes g E = lanes g E'.
  Proof. intro H. apply map_ext_in. intros k Hk. apply in_seq in Hk. rewrite H by lia. reflexivity. Qed.
  Lemma holds_ext s b E E' : (forall k, (k < w)%nat -> E k = E' k) -> holds s b E -> holds s b E'.
  Proof. intros H (A & B & C). unfold holds. setoid_rewrite <- (lanes_ext _ E E' H). auto. Qed.

  Lemma put_fields_ok b nf f g : (forall j, (j < nf)%nat -> f j = Ok (g j)) -> forall js d, (forall j, In j js -> (j < nf)%nat) -> NoDup js ->
    sized (list R) d -> n_fields d = nf -> (b < n_blocks d)%nat ->
    exists d', put_fields b js f d = Ok d' /\ sized (list R) d' /\ n_fields d' = nf /\ n_blocks d' = n_blocks d /\ n_entries d' = n_entries d /\
      (forall j, In j js -> read (list R) AoS d' b j = Ok (g j)) /\
      (forall b' j, (b' < n_blocks d)%nat -> (j < nf)%nat -> (b' <> b \/ ~ In j js) -> read (list R) AoS d' b' j = read (list R) AoS d b' j).
  Proof.
    intros Hf. induction js as [| j js IH]; intros d Hin Hnd Hs Hnf Hb.
    - exists d. cbn. repeat split; auto. intros j [].
    - inversion Hnd as [| ? ? Hj Hnd']; subst. cbn. rewrite Hf by (apply Hin; left; reflexivity). cbn.
      destruct (write_ok (list R) AoS d b j (g j) Hs Hb (Hin j (or_introl eq_refl))) as (d1 & E1 & W1 & I3 & I1 & I2 & _ & W). rewrite E1. cbn.
      destruct (IH d1) as (d' & A & B & C & D & F & G & H).
      { intros x Hx. apply Hin. right. exact Hx. } { exact Hnd'. } { exact W1. } { exact I2. } { rewrite I1. exact Hb. }
      exists d'. repeat split; auto; try congruence.
      + intros x [<- | Hx]; [| apply G; exact Hx]. rewrite H; [| rewrite I1; exact Hb | apply Hin; left; reflexivity | right; exact Hj].
        rewrite W; [| exact Hb | apply Hin; left; reflexivity]. rewrite !Nat.eqb_refl. reflexivity.
      + intros b' x Hb' Hx Hor. rewrite H; [| rewrite I1; exact Hb' | exact Hx | destruct Hor as [?|Hn]; [left; assumption | right; intro; apply Hn; right; assumption]].
        rewrite W by assumption. destruct (Nat.eqb_spec b' b) as [->|]; [|reflexivity]. destruct (Nat.eqb_spec x j) as [->|]; [|reflexivity].
        destruct Hor as [X|X]; [contradiction X; reflexivity | contradiction X; left; reflexivity].
  Qed.

  Lemma put_block_ok n nf s b f fw fg E : dims n nf s -> (b < blocks w n)%nat ->
    (forall j, (j < nf)%nat -> f j = Ok (lanes (value j) E)) -> fw = Ok (lanes weight E) -> fg = Ok (lanes genPdf E) ->
    exists s', put_block s b f fw fg = Ok s' /\ dims n nf s' /\ holds s' b E /\
      forall b' E', (b' < blocks w n)%nat -> b' <> b -> holds s b' E' -> holds s' b' E'.
  Proof.
    intros (D1 & D2 & D3 & D4 & D5 & D6) Hb Hf -> ->.
    destruct (put_fields_ok b nf f (fun j => lanes (value j) E) Hf (seq 0 nf) (data s)) as (d & A & B & C & D & F & G & H).
    { intros j Hj. apply in_seq in Hj. lia. } { apply seq_NoDup. } { exact D4. } { exact D3. } { rewrite D2. exact Hb. }
    destruct (set_at_Some b (lanes weight E) (weights s)) as (lw & W1 & W2 & W3). { lia. }
    destruct (set_at_Some b (lanes genPdf E) (gens s)) as (lg & G1 & G2 & G3). { lia. }
    exists (Simd d lw lg). unfold put_block. rewrite D3, A. cbn. rewrite W1. cbn. rewrite G1. cbn. split; [reflexivity|]. split; [| split].
    - unfold dims. cbn. repeat split; try congruence; try lia.
    - unfold holds. cbn. rewrite W3, G3, Nat.eqb_refl. repeat split; auto. intros j Hj. apply G. apply in_seq. lia.
    - intros b' E' Hb' Hne (X & Y & Z). unfold holds. cbn. rewrite W3, G3. destruct (Nat.eqb_spec b' b) as [->|_]; [contradiction Hne; reflexivity|].
      repeat split; auto. intros j Hj. rewrite H; [apply X; lia | lia | lia | left; exact Hne].
  Qed.

  Lemma resize_dims nf n s : dims n nf (resize w nf n s).
  Proof.
    unfold dims, resize, construct, sized. cbn. rewrite !repeat_length. repeat split.
    - unfold vresize. rewrite app_length, firstn_length, repeat_length. nia.
    - unfold vresize. rewrite app_length, firstn_length, repeat_length. nia.
  Qed.

  (** ** Conversion *)
  Definition lastof (l : list event) : event := List.last l blank.
  Definition conv (l : list event) (i : nat) : event :=
    match nth_error l i with Some e => e | None => Event (values (lastof l)) (weight (lastof l)) 1 0 end.
  Lemma nth_last (l : list event) : l <> [] -> nth_error l (List.length l - 1) = Some (lastof l).
  Proof. clear w0 w.
    intro H. destruct (exists_last H) as (a & x & ->). unfold lastof. rewrite last_last, app_length. cbn. rewrite nth_error_app2 by lia.
    replace (List.length a + 1 - 1 - List.length a)%nat with 0%nat by lia. reflexivity.
  Qed.
  Lemma last_in (l : list event) : l <> [] -> In (lastof l) l.
  Proof. clear w0 w. intro H. apply nth_last in H. apply nth_error_In in H. exact H. Qed.
  Lemma field_ok nf j e : List.length (values e) = nf -> (j < nf)%nat -> field j e = Ok (value j e).
  Proof. intros H Hj. unfold field, value. rewrite (nth_error_nth' _ 0) by lia. reflexivity. Qed.
  Lemma gather_last (l : list event) f (g : event -> R) off : l <> [] -> (forall e, In e l -> f e = Ok (g e)) ->
    gather w l f off 0 = Ok (map (fun k => match nth_error l (off + k) with Some e => g e | None => g (lastof l) end) (seq 0 w)).
  Proof.
    intros Hl H. unfold gather. apply each_ok. intros k _. destruct (nth_error l (off + k)) as [e|] eqn:E; [apply H; apply nth_error_In in E; exact E|].
    destruct (Req_EM_T 0 0) as [_|n]; [| contradiction n; reflexivity]. rewrite nth_last by exact Hl. apply H. apply last_in. exact Hl.
  Qed.
  Lemma gather_df (l : list event) f (g : event -> R) off df : df <> 0 -> (forall e, In e l -> f e = Ok (g e)) ->
    gather w l f off df = Ok (map (fun k => match nth_error l (off + k) with Some e => g e | None => df end) (seq 0 w)).
  Proof.
    intros Hd H. unfold gather. apply each_ok. intros k _. destruct (nth_error l (off + k)) as [e|] eqn:E; [apply H; apply nth_error_In in E; exact E|].
    destruct (Req_EM_T df 0) as [X|_]; [contradiction|reflexivity].
  Qed.
  Lemma from_blocks_ok nf l : of_size nf l -> l <> [] -> forall bs s, dims (List.length l) nf s -> NoDup bs -> (forall b, In b bs -> (b < blocks w (List.length l))%nat) ->
    exists s', from_blocks w l bs s = Ok s' /\ dims (List.length l) nf s' /\ (forall b, In b bs -> holds s' b (fun k => conv l (b * w + k))) /\
      (forall b E, (b < blocks w (List.length l))%nat -> ~ In b bs -> holds s b E -> holds s' b E).
  Proof.
    intros Hsz Hl. unfold of_size in Hsz. rewrite Forall_forall in Hsz. induction bs as [| b bs IH]; intros s Hd Hn Hin.
    - exists s. split; [reflexivity|]. split; [exact Hd|]. split; [intros b [] | auto].
    - inversion Hn as [| ? ? Hb Hn']; subst.
      destruct (put_block_ok (List.length l) nf s b (fun j => gather w l (field j) (b * w) 0) (gather w l (fun e => Ok (weight e)) (b * w) 0)
                  (gather w l (fun e => Ok (genPdf e)) (b * w) 1) (fun k => conv l (b * w + k))) as (s1 & A & B & C & D).
      { exact Hd. } { apply Hin. left. reflexivity. }
      { intros j Hj. rewrite (gather_last l (field j) (value j)); [| exact Hl | intros e He; apply (field_ok nf); [apply Hsz; exact He | exact Hj]].
        f_equal. apply map_ext. intro k. unfold conv. destruct (nth_error l (b * w + k)); reflexivity. }
      { rewrite (gather_last l _ weight); [| exact Hl | reflexivity]. f_equal. apply map_ext. intro k. unfold conv. destruct (nth_error l (b * w + k)); reflexivity. }
      { rewrite (gather_df l _ genPdf); [| lra | reflexivity]. f_equal. apply map_ext. intro k. unfold conv. destruct (nth_error l (b * w + k)); reflexivity. }
      destruct (IH s1 B Hn') as (s' & A' & B' & C' & D'). { intros x Hx. apply Hin. right. exact Hx. }
      exists s'. cbn [from_blocks]. rewrite A. cbn [bind]. split; [exact A'|]. split; [exact B'|]. split.
      + intros x [<- | Hx]; [| apply C'; exact Hx]. apply D'; [apply Hin; left; reflexivity | exact Hb | exact C].
      + intros x E Hx Hni H. apply D'; [exact Hx | intro X; apply Hni; right; exact X |]. apply D; [exact Hx | intro X; apply Hni; left; symmetry; exact X | exact H].
  Qed.
  (** Every block holds the events [E]. *)
  Definition all_blocks (n nf : nat) (s : simd) (E : nat -> event) : Prop := dims n nf s /\ forall b, (b < blocks w n)%nat -> holds s b (fun k => E (b * w + k)%nat).
  Lemma from_list_ok nf l : of_size nf l -> exists s, from_list w nf l = Ok s /\ all_blocks (List.length l) nf s (conv l).
  Proof.
    intro H. unfold from_list. cbv zeta. assert (D := resize_dims nf (List.length l) (empty_list w nf)). destruct l as [| e l'].
    - cbn. eexists. split; [reflexivity|]. split; [exact D|]. cbn. intros b Hb. lia.
    - remember (e :: l') as l. destruct (from_blocks_ok nf l H ltac:(subst; discriminate) (seq 0 (blocks w (List.length l))) _ D) as (s & A & B & C & _).
      { apply seq_NoDup. } { intros b Hb. apply in_seq in Hb. lia. }
      exists s. replace (n_blocks (data (resize w nf (List.length l) (empty_list w nf)))) with (blocks w (List.length l)) by (symmetry; apply D).
      split; [exact A|]. split; [exact B|]. intros b Hb. apply C. apply in_seq. lia.
  Qed.

  (** ** Reading *)
  Definition renumber (i : nat) (e : event) : event := Event (values e) (weight e) (genPdf e) i.
  Lemma values_fields nf e : List.length (values e) = nf -> map (fun j => value j e) (seq 0 nf) = values e.
  Proof.
    intros <-. apply nth_error_ext_eq. intro i. destruct (Nat.ltb_spec i (List.length (values e))) as [H|H].
    - rewrite nth_error_map_seq by exact H. cbn. unfold value. symmetry. apply nth_error_nth'. exact H.
    - rewrite (proj2 (nth_error_None _ _)) by (rewrite map_length, seq_length; exact H). symmetry. apply nth_error_None. exact H.
  Qed.
  Lemma at_ok n nf s E i : dims n nf s -> (forall b, (b < blocks w n)%nat -> holds s b (fun k => E (b * w + k)%nat)) -> (i / w < blocks w n)%nat ->
    List.length (values (E i)) = nf -> at_ w s i = Ok (renumber i (E i)).
  Proof.
    intros D H Hi Hl. destruct (H _ Hi) as (A & B & C). assert (Hm : (i mod w < w)%nat) by (apply Nat.mod_upper_bound; lia).
    assert (Ei : (i / w * w + i mod w)%nat = i) by (rewrite (Nat.div_mod i w) at 3 by lia; lia).
    assert (F : each (fun j => bind (read (list R) AoS (data s) (i / w) j) (lane (i mod w))) (seq 0 (n_fields (data s))) = Ok (map (fun j => value j (E i)) (seq 0 nf))).
    { destruct D as (_ & _ & D3 & _). rewrite D3. apply each_ok. intros j Hj. apply in_seq in Hj. rewrite A by lia. cbn [bind]. rewrite lane_lanes by exact Hm.
      cbv beta. rewrite Ei. reflexivity. }
    unfold at_. cbv zeta. rewrite F. cbn [bind]. rewrite B, C. cbn [of_opt bind]. rewrite !lane_lanes by exact Hm. cbn [bind]. rewrite Ei, (values_fields nf _ Hl). reflexivity.
  Qed.
  Lemma scatter_ok n nf s b E : dims n nf s -> (b < blocks w n)%nat -> holds s b E -> (forall k, (k < w)%nat -> List.length (values (E k)) = nf) ->
    scatter w s (b * w) = Ok (map (fun k => renumber (k + b * w) (E k)) (seq 0 w)).
  Proof.
    intros D Hb (A & B & C) Hl. unfold scatter. cbv zeta. rewrite Nat.div_mul by lia. rewrite B, C. cbn [of_opt bind].
    assert (F : each (fun f => read (list R) AoS (data s) b f) (seq 0 (n_fields (data s))) = Ok (map (fun j => lanes (value j) E) (seq 0 nf))).
    { destruct D as (_ & _ & D3 & _). rewrite D3. apply each_ok. intros j Hj. apply in_seq in Hj. apply A. lia. }
    rewrite F. cbn [bind]. apply each_ok. intros k Hk. apply in_seq in Hk.
    assert (G : each (lane k) (map (fun j => lanes (value j) E) (seq 0 nf)) = Ok (map (fun j => value j (E k)) (seq 0 nf))).
    { clear - Hk w0. induction (seq 0 nf) as [| j js IH]; [reflexivity|]. cbn [map each]. rewrite lane_lanes by lia. cbn [bind]. rewrite IH. reflexivity. }
    rewrite G. cbn [bind]. rewrite !lane_lanes by lia. cbn [bind]. rewrite (values_fields nf) by (apply Hl; lia). reflexivity.
  Qed.
  Lemma scatter_end n nf s : dims n nf s -> (0 < nf)%nat -> (blocks w n < List.length (weights s))%nat -> (blocks w n < List.length (gens s))%nat ->
    scatter w s (blocks w n * w) = UB.
  Proof.
    intros (D1 & D2 & D3 & D4 & D5 & D6) Hf Hw Hg. unfold scatter. cbv zeta. rewrite Nat.div_mul by lia.
    destruct (nth_error (weights s) (blocks w n)) as [x|] eqn:E1; [| apply nth_error_None in E1; lia].
    destruct (nth_error (gens s) (blocks w n)) as [y|] eqn:E2; [| apply nth_error_None in E2; lia]. cbn [of_opt bind].
    destruct nf as [| nf]; [lia|]. rewrite D3. cbn [seq each]. unfold read at 1, address. rewrite (proj2 (nth_error_None _ _)); [reflexivity|].
    unfold sized in D4. rewrite D4, D2. lia.
  Qed.

  (** ** Loops *)
  Lemma lane_bound b k B : (b < B)%nat -> (k < w)%nat -> (b * w + k < w * B)%nat.
  Proof. intros H K. assert ((b + 1) * w <= B * w)%nat by (apply Nat.mul_le_mono_r; lia). lia. Qed.
  Lemma walk_ok n nf s E : all_blocks n nf s E -> (forall i, (i < w * blocks w n)%nat -> List.length (values (E i)) = nf) ->
    forall steps pos, (pos + steps < w * blocks w n)%nat ->
    walk w s steps pos (map (fun k => renumber (k + pos / w * w) (E (pos / w * w + k)%nat)) (seq 0 w)) = Ok (map (fun i => renumber i (E i)) (seq pos steps)).
  Proof.
    intros (D & H) Hl. induction steps as [| m IH]; intros pos Hp; [reflexivity|].
    cbn [walk]. assert (Hm : (pos mod w < w)%nat) by (apply Nat.mod_upper_bound; lia).
    assert (Ei : (pos / w * w + pos mod w)%nat = pos) by (rewrite (Nat.div_mod pos w) at 3 by lia; lia).
    rewrite nth_error_map_seq by exact Hm. cbn [of_opt bind]. rewrite Nat.add_0_l, (Nat.add_comm (pos mod w)), Ei.
    assert (Hs : (if (S pos mod w =? 0)%nat then scatter w s (S pos) else Ok (map (fun k => renumber (k + pos / w * w) (E (pos / w * w + k)%nat)) (seq 0 w))) =
                 Ok (map (fun k => renumber (k + S pos / w * w) (E (S pos / w * w + k)%nat)) (seq 0 w))).
    { destruct (Nat.eqb_spec (S pos mod w) 0) as [Z|Z].
      - assert (Q : (S pos / w * w)%nat = S pos). { rewrite (Nat.div_mod (S pos) w) at 2 by lia. lia. }
        assert (Hb : (S pos / w < blocks w n)%nat) by (apply Nat.div_lt_upper_bound; lia).
        rewrite <- Q at 1. apply (scatter_ok n nf); [exact D | exact Hb | apply H; exact Hb |].
        intros k Hk. apply Hl. apply lane_bound; [first [exact Hb | nia] | exact Hk].
      - replace (S pos / w)%nat with (pos / w)%nat; [reflexivity|]. apply (Nat.div_unique _ _ _ (S (pos mod w))).
        + destruct (Nat.eq_dec (S (pos mod w)) w) as [X|X]; [| lia]. contradiction Z.
          assert (Y : (S pos = (pos / w + 1) * w)%nat) by nia. rewrite Y. apply Nat.mod_mul. lia.
        + rewrite (Nat.div_mod pos w) at 1 by lia. lia. }
    rewrite Hs. cbn [bind]. rewrite IH by lia. reflexivity.
  Qed.
  Lemma blocks_aligned n : (N.of_nat n < 4294967296)%N -> (n <= w * blocks w n)%nat /\ (w * blocks w n < n + w)%nat.
  Proof.
    intro H. unfold blocks. destruct (Nat.eqb_spec n 0) as [->|Hn]; [lia|].
    pose proof (Nat.div_mod (n - 1) w ltac:(lia)). pose proof (Nat.mod_upper_bound (n - 1) w ltac:(lia)).
    rewrite unsigned_small; [nia|]. assert ((n - 1) / w <= n - 1)%nat by (apply Nat.div_le_upper_bound; nia). lia.
  Qed.
  Lemma iterate_ok n nf s E : (N.of_nat n < 4294967296)%N -> (n mod w <> 0)%nat -> all_blocks n nf s E -> (forall i, (i < w * blocks w n)%nat -> List.length (values (E i)) = nf) ->
    iterate w s = Ok (map (fun i => renumber i (E i)) (seq 0 n)).
  Proof.
    intros Hn Hm A Hl. destruct (blocks_aligned n Hn) as [B1 B2]. assert (n <> 0)%nat by (intros ->; apply Hm; apply Nat.mod_0_l; lia).
    assert (B3 : (n < w * blocks w n)%nat). { destruct (Nat.eq_dec n (w * blocks w n)) as [X|X]; [| lia]. contradiction Hm. rewrite X. rewrite Nat.mul_comm. apply Nat.mod_mul. lia. }
    unfold iterate. destruct A as (D & H'). pose proof D as (D1 & D2 & _). rewrite D1, D2. rewrite (proj2 (Nat.ltb_lt 0 (w * blocks w n))) by lia.
    assert (S0 : scatter w s 0 = Ok (map (fun k => renumber (k + 0 / w * w) (E (0 / w * w + k)%nat)) (seq 0 w))).
    { rewrite Nat.div_0_l by lia. change (scatter w s (0 * w) = Ok (map (fun k => renumber (k + 0 * w) (E (0 * w + k)%nat)) (seq 0 w))). apply (scatter_ok n nf); [exact D | nia | apply H'; nia |].
      intros k Hk. apply Hl. apply lane_bound; [first [exact Hb | nia] | exact Hk]. }
    rewrite S0. cbn [bind]. apply (walk_ok n nf); [split; assumption | exact Hl | lia].
  Qed.
  (** When the last block is full the loop reads behind it. *)
  Lemma walk_end n nf s E : all_blocks n nf s E -> (forall i, (i < w * blocks w n)%nat -> List.length (values (E i)) = nf) -> (0 < nf)%nat ->
    (blocks w n < List.length (weights s))%nat -> (blocks w n < List.length (gens s))%nat ->
    forall steps pos, (pos + S steps = w * blocks w n)%nat ->
    walk w s (S steps) pos (map (fun k => renumber (k + pos / w * w) (E (pos / w * w + k)%nat)) (seq 0 w)) = UB.
  Proof.
    intros (D & H) Hl Hf Hw Hg. induction steps as [| m IH]; intros pos Hp; cbn [walk];
    assert (Hm : (pos mod w < w)%nat) by (apply Nat.mod_upper_bound; lia);
    rewrite nth_error_map_seq by exact Hm; cbn [of_opt bind].
    - replace (S pos) with (blocks w n * w)%nat by nia. rewrite Nat.mod_mul by lia. cbn [Nat.eqb]. rewrite (scatter_end n nf) by assumption. reflexivity.
    - assert (Hs : (if (S pos mod w =? 0)%nat then scatter w s (S pos) else Ok (map (fun k => renumber (k + pos / w * w) (E (pos / w * w + k)%nat)) (seq 0 w))) =
                 Ok (map (fun k => renumber (k + S pos / w * w) (E (S pos / w * w + k)%nat)) (seq 0 w))).
      { destruct (Nat.eqb_spec (S pos mod w) 0) as [Z|Z].
        - assert (Q : (S pos / w * w)%nat = S pos). { rewrite (Nat.div_mod (S pos) w) at 2 by lia. lia. }
          assert (Hb : (S pos / w < blocks w n)%nat) by (apply Nat.div_lt_upper_bound; lia).
          rewrite <- Q at 1. apply (scatter_ok n nf); [exact D | exact Hb | apply H; exact Hb |].
          intros k Hk. apply Hl. apply lane_bound; [first [exact Hb | nia] | exact Hk].
        - replace (S pos / w)%nat with (pos / w)%nat; [reflexivity|]. apply (Nat.div_unique _ _ _ (S (pos mod w))).
          + destruct (Nat.eq_dec (S (pos mod w)) w) as [X|X]; [| lia]. contradiction Z.
            pose proof (Nat.div_mod pos w ltac:(lia)). assert (Y : (S pos = (pos / w + 1) * w)%nat) by nia. rewrite Y. apply Nat.mod_mul. lia.
          + rewrite (Nat.div_mod pos w) at 1 by lia. lia. }
      rewrite Hs. cbn [bind]. pose proof (IH (S pos) ltac:(lia)) as I. cbn [walk] in I. rewrite I. reflexivity.
  Qed.

  (** ** Sums *)
  Lemma total_app {A} (g : A -> R) a b : total g (a ++ b) = total g a + total g b.
  Proof. induction a as [| x a IH]; cbn; [lra|]. rewrite IH. lra. Qed.
  Lemma total_plus {A} (g h : A -> R) l : total (fun x => g x + h x) l = total g l + total h l.
  Proof. induction l as [| x l IH]; cbn; [lra|]. rewrite IH. lra. Qed.
  Lemma total_ext {A} (g h : A -> R) l : (forall x, In x l -> g x = h x) -> total g l = total h l.
  Proof. induction l as [| x l IH]; cbn; intro H; [reflexivity|]. rewrite (H x (or_introl eq_refl)), IH; [reflexivity|]. intros y Hy. apply H. right. exact Hy. Qed.
  Lemma total_const {A} c (l : list A) : total (fun _ => c) l = INR (List.length l) * c.
  Proof. induction l as [| x l IH]; [cbn; lra|]. cbn [total List.length]. rewrite IH, S_INR. lra. Qed.
  Lemma total_seq_shift (g : nat -> R) a m : total g (seq a m) = total (fun k => g (a + k)%nat) (seq 0 m).
  Proof. clear w0 w.
    revert g a. induction m as [| m IH]; intros g a; [reflexivity|]. cbn [seq total]. rewrite Nat.add_0_r, (IH g (S a)). f_equal.
    rewrite (IH _ 1%nat). apply total_ext. intros k _. f_equal. lia.
  Qed.
  Lemma vzip_map f (g h : nat -> R) l : vzip f (map g l) (map h l) = map (fun k => f (g k) (h k)) l.
  Proof. unfold vzip. induction l as [| x l IH]; [reflexivity|]. cbn. rewrite IH. reflexivity. Qed.
  Lemma fold_blocks (g : nat -> nat -> R) bs : forall a, fold_left (vzip Rplus) (map (fun b => map (g b) (seq 0 w)) bs) (map a (seq 0 w)) =
    map (fun k => a k + total (fun b => g b k) bs) (seq 0 w).
  Proof.
    induction bs as [| b bs IH]; intro a; cbn [map fold_left total]; [apply map_ext; intro; lra|]. rewrite vzip_map, IH. apply map_ext. intro k. lra.
  Qed.
  Lemma splat_map x : splat w x = map (fun _ => x) (seq 0 w).
  Proof. unfold splat. generalize 0%nat. clear w0. induction w as [| m IH]; intro a; [reflexivity|]. cbn. rewrite <- (IH (S a)). reflexivity. Qed.
  Lemma fold_plus l : forall a, fold_left Rplus l a = a + total (fun x => x) l.
  Proof. induction l as [| x l IH]; intro a; cbn; [lra|]. rewrite IH. lra. Qed.
  Lemma total_map {A B} (f : A -> B) (g : B -> R) l : total g (map f l) = total (fun x => g (f x)) l.
  Proof. induction l as [| x l IH]; [reflexivity|]. cbn. rewrite IH. reflexivity. Qed.
  Lemma exchange (g : nat -> R) B : total (fun k => total (fun b => g (b * w + k)%nat) (seq 0 B)) (seq 0 w) = total g (seq 0 (w * B)).
  Proof.
    induction B as [| B IH].
    - rewrite Nat.mul_0_r. cbn. rewrite total_const. lra.
    - rewrite seq_S. cbn [plus]. rewrite (total_ext _ (fun k => total (fun b => g (b * w + k)%nat) (seq 0 B) + g (B * w + k)%nat)).
      2:{ intros k _. rewrite total_app. cbn. lra. }
      rewrite total_plus, IH. replace (w * S B)%nat with (w * B + w)%nat by lia. rewrite seq_app, total_app. f_equal.
      rewrite (total_seq_shift g (0 + w * B)). apply total_ext. intros k _. f_equal. lia.
  Qed.
  Lemma block_sum (g : nat -> R) B : sum_elements (fold_left (vzip Rplus) (map (fun b => map (fun k => g (b * w + k)%nat) (seq 0 w)) (seq 0 B)) (splat w 0)) = total g (seq 0 (w * B)).
  Proof.
    rewrite splat_map, (fold_blocks (fun b k => g (b * w + k)%nat)). unfold sum_elements. rewrite fold_plus, total_map, Rplus_0_l.
    rewrite <- exchange. apply total_ext. intros k _. lra.
  Qed.
  Lemma apply_ok n nf s b E F : dims n nf s -> holds s b E -> (forall k, (k < w)%nat -> List.length (values (E k)) = nf) ->
    apply w s F b = Ok (map (fun k => F (values (E k))) (seq 0 w)).
  Proof.
    intros D (A & _) Hl. unfold apply.
    assert (X : each (fun f => read (list R) AoS (data s) b f) (seq 0 (n_fields (data s))) = Ok (map (fun j => lanes (value j) E) (seq 0 nf))).
    { destruct D as (_ & _ & D3 & _). rewrite D3. apply each_ok. intros j Hj. apply in_seq in Hj. apply A. lia. }
    rewrite X. cbn [bind]. apply each_ok. intros k Hk. apply in_seq in Hk.
    assert (G : each (lane k) (map (fun j => lanes (value j) E) (seq 0 nf)) = Ok (map (fun j => value j (E k)) (seq 0 nf))).
    { clear - Hk w0. induction (seq 0 nf) as [| j js IH]; [reflexivity|]. cbn [map each]. rewrite lane_lanes by lia. cbn [bind]. rewrite IH. reflexivity. }
    rewrite G. cbn [bind]. rewrite (values_fields nf) by (apply Hl; lia). reflexivity.
  Qed.
  Lemma getVal_ok n nf s E pdf : all_blocks n nf s E -> (forall i, (i < w * blocks w n)%nat -> List.length (values (E i)) = nf) ->
    getVal w s pdf = Ok (-2 * total (fun i => weight (E i) * ln (pdf (values (E i)))) (seq 0 (w * blocks w n))).
  Proof.
    intros (D & H) Hl. unfold getVal. pose proof D as (_ & D2 & _). rewrite D2.
    rewrite (each_ok _ (fun b => map (fun k => weight (E (b * w + k)%nat) * ln (pdf (values (E (b * w + k)%nat)))) (seq 0 w))).
    - cbn [bind]. rewrite (block_sum (fun i => weight (E i) * ln (pdf (values (E i))))). reflexivity.
    - intros b Hb. apply in_seq in Hb. pose proof (H b ltac:(lia)) as HB. destruct HB as (_ & B & _). rewrite B. cbn [of_opt bind].
      rewrite (apply_ok n nf s b (fun k => E (b * w + k)%nat)); [| exact D | apply H; lia | intros k Hk; apply Hl; apply lane_bound; lia].
      cbn [bind]. rewrite map_map. unfold lanes. rewrite vzip_map. reflexivity.
  Qed.
  Lemma average_ok n nf s E F : all_blocks n nf s E -> (forall i, (i < w * blocks w n)%nat -> List.length (values (E i)) = nf) ->
    average w s F = Ok (total (fun i => weight (E i) / genPdf (E i) * F (values (E i))) (seq 0 (w * blocks w n)) / total (fun i => weight (E i) / genPdf (E i)) (seq 0 (w * blocks w n))).
  Proof.
    intros (D & H) Hl. unfold average, mc_weights. pose proof D as (_ & D2 & _). rewrite D2.
    rewrite (each_ok _ (fun b => map (fun k => weight (E (b * w + k)%nat) / genPdf (E (b * w + k)%nat)) (seq 0 w))).
    2:{ intros b Hb. apply in_seq in Hb. pose proof (H b ltac:(lia)) as HB. destruct HB as (_ & B & C). rewrite B, C. cbn [of_opt bind]. unfold lanes. rewrite vzip_map. reflexivity. }
    cbn [bind]. cbv zeta. rewrite (block_sum (fun i => weight (E i) / genPdf (E i))).
    rewrite (each_ok _ (fun b => map (fun k => weight (E (b * w + k)%nat) / genPdf (E (b * w + k)%nat) * F (values (E (b * w + k)%nat))) (seq 0 w))).
    2:{ intros b Hb. apply in_seq in Hb. rewrite nth_error_map_seq by lia. cbn [of_opt bind plus].
        rewrite (apply_ok n nf s b (fun k => E (b * w + k)%nat)); [| exact D | apply H; lia | intros k Hk; apply Hl; apply lane_bound; lia].
        cbn [bind]. rewrite vzip_map. reflexivity. }
    cbn [bind]. rewrite (block_sum (fun i => weight (E i) / genPdf (E i) * F (values (E i)))). reflexivity.
  Qed.
  (** The sum over all lanes, when those behind the events all have the same value. *)
  Lemma total_nth (h : event -> R) (l : list event) (E : nat -> event) : (forall i e, nth_error l i = Some e -> E i = e) -> total (fun i => h (E i)) (seq 0 (List.length l)) = total h l.
  Proof. clear w0 w.
    revert E. induction l as [| x l IH]; intros E H; [reflexivity|]. cbn [List.length seq total]. rewrite (H 0%nat x eq_refl). f_equal.
    rewrite (total_seq_shift _ 1%nat). apply IH. intros i e He. apply (H (S i) e). exact He.
  Qed.
  Lemma padded_total (h : event -> R) l E N c : (List.length l <= N)%nat -> (forall i e, nth_error l i = Some e -> E i = e) ->
    (forall i, (List.length l <= i < N)%nat -> h (E i) = c) -> total (fun i => h (E i)) (seq 0 N) = total h l + INR (N - List.length l) * c.
  Proof. clear w0 w.
    intros HN H Hc. replace N with (List.length l + (N - List.length l))%nat at 1 by lia. rewrite seq_app, total_app, (total_nth h l E H). f_equal.
    rewrite (total_ext _ (fun _ => c)); [| intros i Hi; apply in_seq in Hi; apply Hc; lia]. rewrite total_const, seq_length. reflexivity.
  Qed.

  (** ** Loading *)
  Definition unweighted (e : event) : event := Event (values e) 0 (genPdf e) (index e).
  Lemma set_at_map {A} (g : nat -> A) k x : (k < w)%nat -> set_at k x (map g (seq 0 w)) = Some (map (fun i => if (i =? k)%nat then x else g i) (seq 0 w)).
  Proof.
    intro H. destruct (set_at_Some k x (map g (seq 0 w))) as (l & La & Lb & Lc). { rewrite map_length, seq_length. exact H. }
    rewrite La. f_equal. apply nth_error_ext_eq. intro i. rewrite Lc. destruct (Nat.ltb_spec i w) as [Hi|Hi].
    - rewrite !nth_error_map_seq by exact Hi. cbn. destruct (Nat.eqb_spec i k); reflexivity.
    - rewrite !(proj2 (nth_error_None _ i)) by (rewrite map_length, seq_length; exact Hi). destruct (Nat.eqb_spec i k); [lia | reflexivity].
  Qed.
  Lemma fill_ok entries base P : forall m a, (a + m = w)%nat ->
    let new k := if (base + k <? List.length entries)%nat then List.nth (base + k) entries blank else unweighted (P k) in
    fill_buffer entries (List.length entries) base (seq a m) (map (fun k => if (k <? a)%nat then new k else P k) (seq 0 w)) = Ok (map new (seq 0 w)).
  Proof.
    induction m as [| m IH]; intros a Ha new.
    - cbn [seq fill_buffer]. f_equal. apply map_ext_in. intros k Hk. apply in_seq in Hk. destruct (Nat.ltb_spec k a); [reflexivity | lia].
    - cbn [seq fill_buffer].
      assert (X : (if (base + a <? List.length entries)%nat
                   then bind (of_opt (nth_error entries (base + a))) (fun e => of_opt (set_at a e (map (fun k => if (k <? a)%nat then new k else P k) (seq 0 w))))
                   else bind (of_opt (nth_error (map (fun k => if (k <? a)%nat then new k else P k) (seq 0 w)) a)) (fun e => of_opt (set_at a (Event (values e) 0 (genPdf e) (index e)) (map (fun k => if (k <? a)%nat then new k else P k) (seq 0 w)))))
                  = Ok (map (fun k => if (k <? S a)%nat then new k else P k) (seq 0 w))).
      { assert (Y : map (fun i => if (i =? a)%nat then new a else if (i <? a)%nat then new i else P i) (seq 0 w) = map (fun k => if (k <? S a)%nat then new k else P k) (seq 0 w)).
        { apply map_ext. intro k. destruct (Nat.eqb_spec k a) as [->|]; [rewrite (proj2 (Nat.ltb_lt a (S a))) by lia; reflexivity|].
          destruct (Nat.ltb_spec k a); destruct (Nat.ltb_spec k (S a)); try lia; reflexivity. }
        destruct (Nat.ltb_spec (base + a) (List.length entries)) as [H|H].
        - rewrite (nth_error_nth' entries blank H). cbn [of_opt bind]. rewrite set_at_map by lia. cbn [of_opt]. rewrite <- Y. unfold new at 2. rewrite (proj2 (Nat.ltb_lt _ _) H). reflexivity.
        - rewrite nth_error_map_seq by lia. cbn [of_opt bind plus]. rewrite Nat.ltb_irrefl. rewrite set_at_map by lia. cbn [of_opt]. rewrite <- Y. unfold new at 2. rewrite (proj2 (Nat.ltb_ge _ _) H). reflexivity. }
      rewrite X. cbn [bind]. apply IH. lia.
  Qed.

  Lemma fill_ok0 entries base P : fill_buffer entries (List.length entries) base (seq 0 w) (map P (seq 0 w)) =
    Ok (map (fun k => if (base + k <? List.length entries)%nat then List.nth (base + k) entries blank else unweighted (P k)) (seq 0 w)).
  Proof. exact (fill_ok entries base P w 0%nat eq_refl). Qed.
  Lemma gather_array_ok n nf s b E : dims n nf s -> (b < blocks w n)%nat -> (forall k, (k < w)%nat -> List.length (values (E k)) = nf) ->
    exists s', gather_array w (map E (seq 0 w)) b s = Ok s' /\ dims n nf s' /\ holds s' b E /\ forall b' E', (b' < blocks w n)%nat -> b' <> b -> holds s b' E' -> holds s' b' E'.
  Proof.
    intros D Hb Hl. unfold gather_array. apply put_block_ok; try assumption.
    - intros j Hj. unfold gather. apply each_ok. intros k Hk. apply in_seq in Hk. cbn [plus]. rewrite nth_error_map_seq by lia. cbn [plus]. apply (field_ok nf); [apply Hl; lia | exact Hj].
    - unfold gather. apply each_ok. intros k Hk. apply in_seq in Hk. cbn [plus]. rewrite nth_error_map_seq by lia. reflexivity.
    - unfold gather. apply each_ok. intros k Hk. apply in_seq in Hk. cbn [plus]. rewrite nth_error_map_seq by lia. reflexivity.
  Qed.
  Definition loaded (l : list event) (i : nat) : event := if (i <? List.length l)%nat then List.nth i l blank else unweighted (List.nth (i - w) l blank).
  Lemma load_blocks_ok nf l : of_size nf l -> (w <= List.length l)%nat -> (N.of_nat (List.length l) < 4294967296)%N ->
    forall m b P s, (b + m = blocks w (List.length l))%nat -> dims (List.length l) nf s ->
    (forall k, (0 < b)%nat -> (k < w)%nat -> P k = loaded l ((b - 1) * w + k)) ->
    exists s', load_blocks w l (List.length l) (seq b m) (map P (seq 0 w)) s = Ok s' /\ dims (List.length l) nf s' /\
      (forall b', (b <= b' < b + m)%nat -> holds s' b' (fun k => loaded l (b' * w + k))) /\ (forall b' E, (b' < b)%nat -> holds s b' E -> holds s' b' E).
  Proof.
    intros Hsz Hw Hn. destruct (blocks_aligned (List.length l) Hn) as [B1 B2]. unfold of_size in Hsz. rewrite Forall_forall in Hsz.
    assert (Hv : forall i, (i < List.length l)%nat -> List.length (values (List.nth i l blank)) = nf) by (intros i Hi; apply Hsz; apply nth_In; exact Hi).
    induction m as [| m IH]; intros b P s Hb D HP.
    - exists s. cbn. split; [reflexivity|]. split; [exact D|]. split; [intros; lia | auto].
    - cbn [seq load_blocks].
      rewrite fill_ok0. cbn [bind].
      set (new := fun k => if (b * w + k <? List.length l)%nat then List.nth (b * w + k) l blank else unweighted (P k)).
      assert (Hnew : forall k, (k < w)%nat -> new k = loaded l (b * w + k)).
      { intros k Hk. unfold new, loaded. destruct (Nat.ltb_spec (b * w + k) (List.length l)) as [H|H]; [reflexivity|].
        assert (Hb0 : (0 < b)%nat) by (destruct b; [cbn in H; lia | lia]). f_equal. rewrite (HP k Hb0 Hk). unfold loaded.
        assert (Hbw : ((b - 1) * w + k = b * w + k - w)%nat) by (destruct b; [lia | cbn; rewrite Nat.sub_0_r; lia]).
        rewrite Hbw. assert (b * w + k < w * blocks w (List.length l))%nat by (apply lane_bound; lia). rewrite (proj2 (Nat.ltb_lt _ _)) by lia. reflexivity. }
      destruct (gather_array_ok (List.length l) nf s b new D) as (s1 & A & D1 & H1 & K1). { lia. }
      { intros k Hk. rewrite Hnew by exact Hk. unfold loaded. destruct (Nat.ltb_spec (b * w + k) (List.length l)) as [H|H]; [apply Hv; exact H|]. cbn. apply Hv.
        assert (b * w + k < w * blocks w (List.length l))%nat by (apply lane_bound; lia). lia. }
      rewrite A. cbn [bind]. destruct (IH (S b) new s1) as (s' & A' & D' & H' & K'). { lia. } { exact D1. }
      { intros k _ Hk. rewrite Hnew by exact Hk. replace (S b - 1)%nat with b by lia. reflexivity. }
      exists s'. split; [exact A'|]. split; [exact D'|]. split.
      + intros b' Hb'. destruct (Nat.eq_dec b' b) as [->|Hne]; [| apply H'; lia]. apply K'; [lia|]. exact (holds_ext _ _ _ _ Hnew H1).
      + intros b' E Hb' HE. apply K'; [lia|]. apply K1; [lia | lia | exact HE].
  Qed.
  Lemma load_ok nf l s0 : of_size nf l -> (l = [] \/ w <= List.length l)%nat -> (N.of_nat (List.length l) < 4294967296)%N ->
    exists s, load w nf l s0 = Ok s /\ all_blocks (List.length l) nf s (loaded l).
  Proof.
    intros Hsz Hor Hn. unfold load. cbv zeta. assert (D := resize_dims nf (List.length l) s0). destruct Hor as [->|Hw].
    - eexists. split; [reflexivity|]. split; [exact D|]. cbn. intros b Hb. lia.
    - pose proof D as (D1 & D2 & _). rewrite D1, D2.
      destruct (load_blocks_ok nf l Hsz Hw Hn (blocks w (List.length l)) 0%nat (fun _ => blank) _ eq_refl D) as (s & A & D' & H & _). { intros k Hk. lia. }
      exists s. assert (Eb : repeat blank w = map (fun _ => blank) (seq 0 w)).
      { generalize 0%nat. clear. induction w as [| m IH]; intro a; [reflexivity|]. cbn. rewrite <- (IH (S a)). reflexivity. }
      rewrite Eb. split; [exact A|]. split; [exact D'|]. intros b Hb. apply H. lia.
  Qed.
  (** Fewer events than a block holds: an event without values is read. *)
  Lemma load_short nf l s0 : of_size nf l -> (0 < nf)%nat -> (0 < List.length l < w)%nat -> load w nf l s0 = UB.
  Proof.
    intros Hsz Hf Hl. unfold load. cbv zeta. assert (D := resize_dims nf (List.length l) s0). pose proof D as (D1 & D2 & D3 & _). rewrite D1, D2.
    assert (Hb : blocks w (List.length l) = 1%nat).
    { unfold blocks. destruct (Nat.eqb_spec (List.length l) 0); [lia|]. rewrite Nat.div_small by lia. reflexivity. }
    rewrite Hb. cbn [seq load_blocks].
    assert (Eb : repeat blank w = map (fun _ => blank) (seq 0 w)).
    { generalize 0%nat. clear. induction w as [| m IH]; intro a; [reflexivity|]. cbn. rewrite <- (IH (S a)). reflexivity. }
    rewrite Eb. rewrite fill_ok0. cbn [bind].
    unfold gather_array, put_block. rewrite D3. destruct nf as [| nf]; [lia|]. cbn [seq put_fields].
    assert (G : forall X, bind (gather w (map (fun k => if (0 * w + k <? List.length l)%nat then List.nth (0 * w + k) l blank else unweighted blank) (seq 0 w)) (field 0) 0 0) X = @UB (store (list R))).
    { intro X. unfold gather.
      assert (Q : forall ks (f : nat -> res R), (exists k, In k ks /\ f k = UB) -> (forall k, In k ks -> f k = UB \/ exists v, f k = Ok v) -> each f ks = UB).
      { clear. induction ks as [| x ks IH]; intros f (k & Hk & Hu) Hall; [destruct Hk|]. cbn. destruct (Hall x (or_introl eq_refl)) as [->|[v Hv]]; [reflexivity|].
        rewrite Hv. cbn. rewrite IH; [reflexivity | | intros y Hy; apply Hall; right; exact Hy]. destruct Hk as [->|Hk]; [congruence | exists k; auto]. }
      rewrite Q; [reflexivity | |].
      - exists (w - 1)%nat. split; [apply in_seq; lia|]. cbn [plus]. rewrite nth_error_map_seq by lia. cbn [plus Nat.mul]. rewrite (proj2 (Nat.ltb_ge _ _)) by lia. reflexivity.
      - intros k Hk. apply in_seq in Hk. cbn [plus]. rewrite nth_error_map_seq by lia. cbn [plus Nat.mul]. destruct (Nat.ltb_spec k (List.length l)) as [H|H]; [right | left; reflexivity].
        eexists. apply (field_ok (S nf)); [| lia]. unfold of_size in Hsz. rewrite Forall_forall in Hsz. apply Hsz. apply nth_In. exact H. }
    rewrite G. reflexivity.
  Qed.

  (** ** Modification *)
  Lemma holds_renumber s b E : holds s b (fun k => E (b * w + k)%nat) -> holds s b (fun k => renumber (b * w + k) (E (b * w + k)%nat)).
  Proof. exact (fun H => H). Qed.
  Section Modify.
    Variable f : event -> event.
    Hypothesis fv : forall e, List.length (values (f e)) = List.length (values e).
    Variable E : nat -> event.
    Hypothesis Ei : forall i, renumber i (E i) = E i.
    Definition cur (p i : nat) : event := if (i <? p)%nat then f (E i) else E i.
    Lemma cur_values nf p i : List.length (values (E i)) = nf -> List.length (values (cur p i)) = nf.
    Proof. intro H. unfold cur. destruct (i <? p)%nat; [rewrite fv|]; exact H. Qed.
    Lemma walk_modify_ok n nf : (n < w * blocks w n)%nat -> (n mod w <> 0)%nat -> (forall i, (i < w * blocks w n)%nat -> List.length (values (E i)) = nf) ->
      forall steps pos s, (pos + steps = n)%nat -> all_blocks n nf s (cur (pos / w * w)) ->
      exists s', walk_modify w f steps pos (map (fun k => cur pos (pos / w * w + k)) (seq 0 w)) s = Ok s' /\ all_blocks n nf s' (cur n).
    Proof.
      intros Hn Hmod Hl. induction steps as [| m IH]; intros pos s Hp (D & H).
      - rewrite Nat.add_0_r in Hp. subst pos. cbn [walk_modify]. destruct (Nat.eqb_spec (n mod w) 0) as [X|_]; [contradiction|].
        assert (Hb : (n / w < blocks w n)%nat) by (apply Nat.div_lt_upper_bound; lia).
        destruct (gather_array_ok n nf s (n / w) (fun k => cur n (n / w * w + k)) D Hb) as (s' & A & D' & H' & K').
        { intros k Hk. apply cur_values. apply Hl. apply lane_bound; assumption. }
        exists s'. split; [exact A|]. split; [exact D'|]. intros b Hbb. destruct (Nat.eq_dec b (n / w)) as [->|Hne]; [exact H'|].
        apply K'; [exact Hbb | exact Hne |]. eapply holds_ext; [| apply H; exact Hbb]. intros k Hk. cbn beta. unfold cur.
        pose proof (Nat.div_mod n w ltac:(lia)). pose proof (Nat.mod_upper_bound n w ltac:(lia)).
        destruct (Nat.lt_total b (n / w)) as [Q|[Q|Q]]; [| contradiction |].
        + assert (b * w + k < w * (n / w))%nat by (apply lane_bound; assumption).
          rewrite (proj2 (Nat.ltb_lt (b * w + k) (n / w * w))) by lia. rewrite (proj2 (Nat.ltb_lt (b * w + k) n)) by lia. reflexivity.
        + assert ((n / w + 1) * w <= b * w)%nat by (apply Nat.mul_le_mono_r; lia).
          rewrite (proj2 (Nat.ltb_ge (b * w + k) (n / w * w))) by lia. rewrite (proj2 (Nat.ltb_ge (b * w + k) n)) by lia. reflexivity.
      - cbn [walk_modify]. pose proof (Nat.div_mod pos w ltac:(lia)) as Q. pose proof (Nat.mod_upper_bound pos w ltac:(lia)) as Hm.
        assert (Hpos : (pos / w * w + pos mod w)%nat = pos) by lia.
        rewrite nth_error_map_seq by exact Hm. cbn [of_opt bind plus]. rewrite Hpos. rewrite set_at_map by exact Hm. cbn [of_opt bind].
        assert (Hbuf : map (fun i => if (i =? pos mod w)%nat then f (cur pos pos) else cur pos (pos / w * w + i)) (seq 0 w) = map (fun k => cur (S pos) (pos / w * w + k)) (seq 0 w)).
        { apply map_ext. intro k. destruct (Nat.eqb_spec k (pos mod w)) as [->|Hk].
          - rewrite Hpos. unfold cur. rewrite Nat.ltb_irrefl. rewrite (proj2 (Nat.ltb_lt pos (S pos))) by lia. reflexivity.
          - unfold cur. destruct (Nat.ltb_spec (pos / w * w + k) pos); destruct (Nat.ltb_spec (pos / w * w + k) (S pos)); try lia; reflexivity. }
        rewrite Hbuf. destruct (Nat.eqb_spec (S pos mod w) 0) as [Z|Z].
        + assert (Hb : (pos / w < blocks w n)%nat) by (apply Nat.div_lt_upper_bound; lia).
          destruct (gather_array_ok n nf s (pos / w) (fun k => cur (S pos) (pos / w * w + k)) D Hb) as (s1 & A & D1 & H1 & K1).
          { intros k Hk. apply cur_values. apply Hl. apply lane_bound; assumption. }
          rewrite A. cbn [bind].
          assert (SQ : (S pos / w * w)%nat = S pos) by (rewrite (Nat.div_mod (S pos) w) at 2 by lia; lia).
          assert (SP : (S pos / w = pos / w + 1)%nat).
          { destruct (Nat.eq_dec (S (pos mod w)) w) as [X|X].
            - symmetry. apply (Nat.div_unique _ _ _ 0); lia.
            - exfalso. assert (Y : (S pos mod w)%nat = S (pos mod w)) by (symmetry; apply (Nat.mod_unique _ _ (pos / w)); lia). lia. }
          assert (AB : all_blocks n nf s1 (cur (S pos / w * w))).
          { split; [exact D1|]. intros b Hbb. destruct (Nat.eq_dec b (pos / w)) as [->|Hne].
            - rewrite SQ. exact H1.
            - apply K1; [exact Hbb | exact Hne |]. eapply holds_ext; [| apply H; exact Hbb]. intros k Hk. cbn beta. unfold cur. rewrite SQ.
              destruct (Nat.lt_total b (pos / w)) as [U|[U|U]]; [| contradiction |].
              + assert (b * w + k < w * (pos / w))%nat by (apply lane_bound; assumption).
                rewrite (proj2 (Nat.ltb_lt (b * w + k) (pos / w * w))) by lia. rewrite (proj2 (Nat.ltb_lt (b * w + k) (S pos))) by lia. reflexivity.
              + assert ((pos / w + 1) * w <= b * w)%nat by (apply Nat.mul_le_mono_r; lia).
                rewrite (proj2 (Nat.ltb_ge (b * w + k) (pos / w * w))) by lia. rewrite (proj2 (Nat.ltb_ge (b * w + k) (S pos))) by lia. reflexivity. }
          assert (Hb2 : (S pos / w < blocks w n)%nat) by (apply Nat.div_lt_upper_bound; lia).
          assert (Sc : scatter w s1 (S pos) = Ok (map (fun k => cur (S pos) (S pos / w * w + k)) (seq 0 w))).
          { rewrite <- SQ at 1. rewrite (scatter_ok n nf s1 (S pos / w) (fun k => cur (S pos / w * w) (S pos / w * w + k)) D1 Hb2).
            - f_equal. apply map_ext. intro k. rewrite SQ. unfold cur. rewrite (proj2 (Nat.ltb_ge (S pos + k) (S pos))) by lia. rewrite Nat.add_comm. apply Ei.
            - apply AB. exact Hb2.
            - intros k Hk. apply cur_values. apply Hl. apply lane_bound; assumption. }
          rewrite Sc. cbn [bind]. apply IH; [lia | exact AB].
        + assert (SP : (S pos / w = pos / w)%nat).
          { symmetry. apply (Nat.div_unique _ _ _ (S (pos mod w))); [| lia]. destruct (Nat.eq_dec (S (pos mod w)) w) as [X|X]; [| lia].
            contradiction Z. assert (Y : (S pos = (pos / w + 1) * w)%nat) by lia. rewrite Y. apply Nat.mod_mul. lia. }
          rewrite <- SP. apply IH; [lia|]. rewrite SP. split; assumption.
    Qed.
  End Modify.
End P.
