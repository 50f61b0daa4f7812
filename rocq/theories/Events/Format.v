(** Proofs about the event format. *)
From Verif.Resolver Require CacheProofs.
From Verif.Events Require Import Model Spec.
From Coq Require Import Permutation.
Local Open Scope nat_scope.

Notation fmt := (list (str * nat)).
Definition keys (m : fmt) : list str := map fst m.
Definition assigns (kvs m : fmt) : fmt := fold_left (fun m kv => assign (fst kv) (snd kv) m) kvs m.

Lemma assign_new k v m : ~ In k (keys m) -> assign k v m = m ++ [(k, v)].
Proof.
  induction m as [|[k' v'] m IH]; intro H; [reflexivity|]. cbn [assign]. destruct (str_eqb_spec k k') as [->|N]; [exfalso; apply H; now left|].
  cbn [app]. f_equal. apply IH. intro. apply H. now right.
Qed.

Lemma assigns_new : forall kvs m, NoDup (keys (m ++ kvs)) -> assigns kvs m = m ++ kvs.
Proof.
  induction kvs as [|[k v] kvs IH]; intros m ND; [now rewrite app_nil_r|]. cbn [assigns fold_left fst snd]. fold (assigns kvs (assign k v m)).
  assert (N : ~ In k (keys m)).
  { unfold keys in ND. rewrite map_app in ND. cbn [map fst] in ND. apply NoDup_remove_2 in ND. intro C. apply ND. apply in_or_app. now left. }
  rewrite assign_new by exact N. rewrite IH; rewrite <- app_assoc; [reflexivity|exact ND].
Qed.

Lemma slot_In k v m : NoDup (keys m) -> In (k, v) m -> slot k m = Some v.
Proof.
  induction m as [|[k' v'] m IH]; intros ND H; [destruct H|]. cbn [slot]. inversion ND as [|? ? N ND']; subst.
  destruct H as [E|H]; [injection E as -> ->; now rewrite str_eqb_refl|].
  destruct (str_eqb_spec k k') as [->|]; [exfalso; apply N; apply in_map_iff; now exists (k', v)|now apply IH].
Qed.

(** ** The entries, in the order in which they are made *)
Definition part (en : bool) (st : str) (ip : nat) : fmt :=
  let s := if en then 4 else 3 in
  (if en then [(st ++ S_ "_E", s * ip + 3)] else []) ++
  [(st ++ S_ "_Px", s * ip + 0); (st ++ S_ "_Py", s * ip + 1); (st ++ S_ "_Pz", s * ip + 2)].
Fixpoint parts (o : bool) (t : eventType) (ip : nat) (l : list str) : fmt :=
  match l with [] => [] | n :: rest => part (energy t) (stub o t ip n) ip ++ parts o t (S ip) rest end.
Definition time (t : eventType) : fmt := if timeDependent t then [(mother t ++ S_ "_decayTime", 4 * size t)] else [].

Lemma momenta_parts o t : forall l ip m, momenta o t ip l m = assigns (parts o t ip l) m.
Proof.
  induction l as [|n l IH]; intros ip m; [reflexivity|]. cbn [momenta parts]. rewrite IH. unfold assigns. rewrite fold_left_app. f_equal.
  unfold part, stride. destruct (energy t); reflexivity.
Qed.

Lemma extends_new : forall xs m, NoDup (keys m ++ xs) ->
  fold_left extend xs m = m ++ combine xs (seq (List.length m) (List.length xs)).
Proof.
  induction xs as [|x xs IH]; intros m ND; [now rewrite app_nil_r|]. cbn [fold_left List.length seq combine]. unfold extend at 2.
  rewrite assign_new.
  - rewrite IH.
    + rewrite app_length, <- app_assoc. cbn [List.length app]. now rewrite Nat.add_1_r.
    + unfold keys. rewrite map_app, <- app_assoc. exact ND.
  - apply NoDup_remove_2 in ND. intro C. apply ND. apply in_or_app. now left.
Qed.

Definition base (o : bool) (t : eventType) : fmt := parts o t 0 (names t) ++ time t.

Lemma format_ok o t : NoDup (keys (base o t) ++ extensions t) ->
  getEventFormat o t = base o t ++ combine (extensions t) (seq (List.length (base o t)) (List.length (extensions t))).
Proof.
  intro ND. unfold getEventFormat. rewrite momenta_parts.
  assert (B : NoDup (keys (base o t))).
  { clear - ND. induction (keys (base o t)) as [|x l IH]; [constructor|]. cbn in ND. inversion ND; subst. constructor; [intro; apply H1; apply in_or_app; now left|now apply IH]. }
  assert (E : (if timeDependent t then assign (mother t ++ S_ "_decayTime") (4 * size t) (assigns (parts o t 0 (names t)) []) else assigns (parts o t 0 (names t)) []) = base o t).
  { transitivity (assigns (time t) (assigns (parts o t 0 (names t)) [])).
    - unfold time. destruct (timeDependent t); reflexivity.
    - unfold assigns. rewrite <- fold_left_app. fold (assigns (parts o t 0 (names t) ++ time t) []). exact (assigns_new (parts o t 0 (names t) ++ time t) [] B). }
  cbn zeta. rewrite E. now apply extends_new.
Qed.

(** ** Values *)
Lemma parts_values o t : energy t = true -> forall l ip, Permutation (map snd (parts o t ip l)) (seq (4 * ip) (4 * List.length l)).
Proof.
  intro He. induction l as [|n l IH]; intro ip; [rewrite Nat.mul_0_r; constructor|]. cbn [parts]. rewrite map_app.
  cbn [List.length]. replace (4 * S (List.length l)) with (4 + 4 * List.length l) by lia. rewrite seq_app. apply Permutation_app.
  - unfold part. rewrite He. cbn [app map snd seq]. rewrite Nat.add_0_r.
    replace (S (4 * ip)) with (4 * ip + 1) by lia. replace (S (4 * ip + 1)) with (4 * ip + 2) by lia. replace (S (4 * ip + 2)) with (4 * ip + 3) by lia.
    apply (Permutation_app_comm [4 * ip + 3] [4 * ip; 4 * ip + 1; 4 * ip + 2]).
  - replace (4 * ip + 4) with (4 * S ip) by lia. apply IH.
Qed.

Lemma parts_values3 o t : energy t = false -> forall l ip, map snd (parts o t ip l) = seq (3 * ip) (3 * List.length l).
Proof.
  intro He. induction l as [|n l IH]; intro ip; [rewrite Nat.mul_0_r; reflexivity|]. cbn [parts]. rewrite map_app.
  cbn [List.length]. replace (3 * S (List.length l)) with (3 + 3 * List.length l) by lia. rewrite seq_app. f_equal.
  - unfold part. rewrite He. cbn [app map snd seq]. rewrite Nat.add_0_r.
    replace (S (3 * ip)) with (3 * ip + 1) by lia. now replace (S (3 * ip + 1)) with (3 * ip + 2) by lia.
  - rewrite IH. f_equal. lia.
Qed.

Lemma parts_length o t : forall l ip, List.length (parts o t ip l) = stride t * List.length l.
Proof.
  unfold stride. induction l as [|n l IH]; intro ip; [now rewrite Nat.mul_0_r|]. cbn [parts]. rewrite app_length, IH. unfold part.
  destruct (energy t); cbn [app List.length]; lia.
Qed.

Lemma base_length o t : List.length (base o t) = stride t * size t + if timeDependent t then 1 else 0.
Proof. unfold base, time. rewrite app_length, parts_length. unfold size. now destruct (timeDependent t). Qed.

Lemma snd_combine {A} (l : list A) : forall s, map snd (combine l (seq s (List.length l))) = seq s (List.length l).
Proof. induction l as [|x l IH]; intro s; [reflexivity|]. cbn. now rewrite IH. Qed.

Lemma slots_perm o t : energy t = true -> NoDup (keys (base o t) ++ extensions t) ->
  Permutation (map snd (getEventFormat o t)) (seq 0 (List.length (getEventFormat o t))).
Proof.
  intros He ND. rewrite (format_ok o t ND), map_app, snd_combine, app_length, combine_length, seq_length, Nat.min_id.
  rewrite seq_app. apply Permutation_app; [|reflexivity]. rewrite base_length. unfold base. rewrite map_app. unfold stride. rewrite He.
  rewrite seq_app. apply Permutation_app.
  - exact (parts_values o t He (names t) 0).
  - unfold time. destruct (timeDependent t); reflexivity.
Qed.

(** ** Lookups *)
Lemma parts_In o t : forall l ip k n, nth_error l k = Some n -> forall kv, In kv (part (energy t) (stub o t (ip + k) n) (ip + k)) -> In kv (parts o t ip l).
Proof.
  induction l as [|m l IH]; intros ip k n H kv Hkv; [destruct k; discriminate|]. cbn [parts]. apply in_or_app. destruct k as [|k].
  - injection H as ->. rewrite Nat.add_0_r in Hkv. now left.
  - right. apply (IH (S ip) k n H). replace (S ip + k) with (ip + S k) by lia. exact Hkv.
Qed.

Lemma keys_format o t : NoDup (keys (base o t) ++ extensions t) -> NoDup (keys (getEventFormat o t)).
Proof.
  intro ND. rewrite (format_ok o t ND). unfold keys. rewrite map_app.
  replace (map fst (combine (extensions t) (seq (List.length (base o t)) (List.length (extensions t))))) with (extensions t); [exact ND|].
  generalize (List.length (base o t)). clear ND. induction (extensions t) as [|x l IH]; intro s; [reflexivity|]. cbn. f_equal. apply IH.
Qed.

Lemma lookup_part o t ip n kv : NoDup (keys (base o t) ++ extensions t) -> nth_error (names t) ip = Some n ->
  In kv (part (energy t) (stub o t ip n) ip) -> slot (fst kv) (getEventFormat o t) = Some (snd kv).
Proof.
  intros ND H Hkv. apply slot_In; [now apply keys_format|]. rewrite (format_ok o t ND). apply in_or_app. left. unfold base. apply in_or_app. left.
  destruct kv. apply (parts_In o t (names t) 0 ip n H). exact Hkv.
Qed.

Lemma lookup_time o t : NoDup (keys (base o t) ++ extensions t) -> timeDependent t = true ->
  slot (mother t ++ S_ "_decayTime") (getEventFormat o t) = Some (4 * size t).
Proof.
  intros ND H. apply slot_In; [now apply keys_format|]. rewrite (format_ok o t ND). apply in_or_app. left. unfold base. apply in_or_app. right.
  unfold time. rewrite H. now left.
Qed.

Lemma combine_seq_In {A} (l : list A) : forall s k x, nth_error l k = Some x -> In (x, s + k) (combine l (seq s (List.length l))).
Proof.
  induction l as [|y l IH]; intros s k x H; [destruct k; discriminate|]. destruct k as [|k].
  - injection H as ->. left. f_equal. lia.
  - right. cbn [seq List.length]. replace (s + S k) with (S s + k) by lia. apply IH. exact H.
Qed.

Lemma lookup_extension o t k x : NoDup (keys (base o t) ++ extensions t) -> nth_error (extensions t) k = Some x ->
  slot x (getEventFormat o t) = Some (List.length (base o t) + k).
Proof.
  intros ND H. apply slot_In; [now apply keys_format|]. rewrite (format_ok o t ND). apply in_or_app. right. now apply combine_seq_In.
Qed.

(** ** The names are distinct *)
Definition stubs (o : bool) (t : eventType) : list str := map (fun p => stub o t (fst p) (snd p)) (combine (seq 0 (size t)) (names t)).

Definition is_digit (c : ascii) : bool := (48 <=? nat_of_ascii c) && (nat_of_ascii c <=? 57).
Lemma digits_digit : forall f n, Forall (fun c => is_digit c = true) (digits f n).
Proof.
  induction f as [|f IH]; intro n; [constructor|]. cbn [digits]. apply Forall_app. split; [destruct (n <? 10); [constructor|apply IH]|].
  constructor; [|constructor]. unfold is_digit. assert (n mod 10 < 10) by (apply Nat.mod_upper_bound; lia).
  rewrite nat_ascii_embedding by lia. apply andb_true_iff. split; apply Nat.leb_le; lia.
Qed.

Lemma to_string_inj n m : to_string n = to_string m -> n = m.
Proof. exact (Verif.Resolver.CacheProofs.to_text_inj n m). Qed.

Lemma to_string_no_under n : ~ In "_"%char (to_string n).
Proof. intro C. pose proof (digits_digit (S n) n) as F. rewrite Forall_forall in F. specialize (F _ C). discriminate F. Qed.

Lemma split_unique {B} (c : B) : forall a b x y, ~ In c a -> ~ In c b -> a ++ c :: x = b ++ c :: y -> a = b /\ x = y.
Proof.
  induction a as [|h a IH]; intros [|k b] x y Ha Hb E; cbn in E.
  - split; congruence.
  - injection E as -> _. exfalso. apply Hb. now left.
  - injection E as <- _. exfalso. apply Ha. now left.
  - injection E as -> E. destruct (IH b x y) as [-> ->]; [intro; apply Ha; now right|intro; apply Hb; now right|exact E|now split].
Qed.

Definition suffixes : list str := [S_ "_E"; S_ "_Px"; S_ "_Py"; S_ "_Pz"].

(** Stubs as an injective function of the position. *)
Lemma stub_index_inj o t ip ip' n n' x y : alt t = false \/ o = false -> In x suffixes -> In y suffixes ->
  stub o t ip n ++ x = stub o t ip' n' ++ y -> ip = ip' /\ (n = n' -> x = y).
Proof.
  intros Hm Hx Hy E.
  assert (Ux : forall z, In z suffixes -> exists w, z = "_"%char :: w).
  { intros z [<-|[<-|[<-|[<-|[]]]]]; eexists; reflexivity. }
  destruct o; cbn [stub] in E.
  - destruct Hm as [Hm|Hm]; [|discriminate]. unfold stub, parsed_name in E. rewrite Hm in E.
    change (S_ "_") with ["_"%char] in E. cbn [app] in E. injection E as E. rewrite <- !app_assoc in E. cbn [app] in E.
    apply split_unique in E as [E1 E2]; [|apply to_string_no_under|apply to_string_no_under]. apply to_string_inj in E1. split; [lia|].
    intros ->. now apply app_inv_head in E2.
  - unfold stub in E. destruct (Ux x Hx) as (w & ->), (Ux y Hy) as (w' & ->).
    apply split_unique in E as [E1 E2]; [|apply to_string_no_under|apply to_string_no_under]. apply to_string_inj in E1. split; [exact E1|]. intros _. now rewrite E2.
Qed.

Lemma part_keys en st ip k : In k (keys (part en st ip)) -> exists x, In x suffixes /\ k = st ++ x.
Proof.
  unfold part, suffixes. destruct en; cbn [app keys map fst In]; intros H.
  - destruct H as [<-|[<-|[<-|[<-|[]]]]]; eexists; (split; [|reflexivity]); cbn; auto.
  - destruct H as [<-|[<-|[<-|[]]]]; eexists; (split; [|reflexivity]); cbn; auto.
Qed.

Lemma parts_keys o t : forall l ip k, In k (keys (parts o t ip l)) -> exists j n x, nth_error l j = Some n /\ In x suffixes /\ k = stub o t (ip + j) n ++ x.
Proof.
  induction l as [|m l IH]; intros ip k H; [destruct H|]. cbn [parts] in H. unfold keys in H. rewrite map_app in H. apply in_app_or in H as [H|H].
  - apply part_keys in H as (x & Hx & ->). exists 0, m, x. rewrite Nat.add_0_r. repeat split; assumption.
  - apply IH in H as (j & n & x & H1 & H2 & ->). exists (S j), n, x. replace (ip + S j) with (S ip + j) by lia. repeat split; assumption.
Qed.

Lemma NoDup_app {B} (a b : list B) : NoDup a -> NoDup b -> (forall x, In x a -> ~ In x b) -> NoDup (a ++ b).
Proof.
  induction a as [|x a IH]; intros Ha Hb H; [exact Hb|]. cbn. inversion Ha; subst. constructor.
  - intro C. apply in_app_or in C as [C|C]; [contradiction|]. exact (H x (or_introl eq_refl) C).
  - apply IH; [assumption|assumption|]. intros y Hy. apply H. now right.
Qed.

Lemma part_NoDup en st ip : NoDup (keys (part en st ip)).
Proof.
  assert (G : keys (part en st ip) = map (app st) (if en then suffixes else tl suffixes)) by (destruct en; reflexivity).
  rewrite G. apply FinFun.Injective_map_NoDup; [intros x y; apply app_inv_head|].
  destruct en; unfold suffixes; cbn [tl]; repeat (constructor; [let C := fresh in intro C; cbn in C; intuition discriminate|]); constructor.
Qed.

Lemma parts_NoDup o t : alt t = false \/ o = false -> forall l ip, NoDup (keys (parts o t ip l)).
Proof.
  intro Hm. induction l as [|n l IH]; intro ip; [constructor|]. cbn [parts]. unfold keys. rewrite map_app. apply NoDup_app.
  - apply part_NoDup.
  - apply IH.
  - intros k H C. apply part_keys in H as (x & Hx & ->). apply parts_keys in C as (j & n' & y & _ & Hy & E).
    apply (stub_index_inj o t ip (S ip + j) n n' x y Hm Hx Hy) in E as [E _]. lia.
Qed.

Lemma app_last {B} (a b : list B) x y : a ++ [x] = b ++ [y] -> x = y.
Proof. intro H. apply app_inj_tail in H. tauto. Qed.

Lemma time_fresh o t : forall k, In k (keys (parts o t 0 (names t))) -> ~ In k (keys (time t)).
Proof.
  intros k H C. apply parts_keys in H as (j & n & x & _ & Hx & ->). unfold time in C. destruct (timeDependent t); [|destruct C].
  cbn [keys map fst In] in C. destruct C as [E|[]].
  assert (E' : (mother t ++ S_ "_decayTim") ++ ["e"%char] = stub o t (0 + j) n ++ x) by (rewrite <- app_assoc; exact E).
  destruct Hx as [<-|[<-|[<-|[<-|[]]]]].
  - change (S_ "_E") with (S_ "_" ++ ["E"%char]) in E'. rewrite app_assoc in E'. apply app_last in E'. discriminate.
  - change (S_ "_Px") with (S_ "_P" ++ ["x"%char]) in E'. rewrite app_assoc in E'. apply app_last in E'. discriminate.
  - change (S_ "_Py") with (S_ "_P" ++ ["y"%char]) in E'. rewrite app_assoc in E'. apply app_last in E'. discriminate.
  - change (S_ "_Pz") with (S_ "_P" ++ ["z"%char]) in E'. rewrite app_assoc in E'. apply app_last in E'. discriminate.
Qed.

Lemma base_NoDup o t : alt t = false \/ o = false -> NoDup (keys (base o t)).
Proof.
  intro Hm. unfold base, keys. rewrite map_app. apply NoDup_app; [now apply parts_NoDup| |apply time_fresh].
  unfold time. destruct (timeDependent t); repeat constructor. intros [].
Qed.
