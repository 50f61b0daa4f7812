From Verif.Common Require Import Prelude.
From Verif.Utilities Require Import Model Spec Proofs Proofs2 MinSwaps.
From Coq Require Import NArith Permutation.

(** ** C01 *)
Theorem C01_split_delims : forall s D,
  tokenisation D s (split_delims s D true) /\
  (forall toks, tokenisation D s toks -> toks = split_delims s D true) /\
  split_delims s D false = filter (fun t => negb (is_delim_tokenb D t)) (split_delims s D true).
Proof.
  exact (fun s D => conj (split_delims_tokenisation D s) (conj
    (fun toks H => tokenisation_unique D toks _ s H (split_delims_tokenisation D s)) (split_delims_nokeep D s))).
Qed.
Print Assumptions C01_split_delims.
Example C01_example : split_delims (S_ "a+b*cd") ["+"%char; "*"%char] true = map S_ ["a"; "+"; "b"; "*"; "cd"]%string.
Proof. reflexivity. Qed.

(** ** C02 *)
Theorem C02_split_join : forall d toks ig,
  Forall (fun t => ~ In d t /\ ~ blank t) toks -> split (join d toks) d ig = toks.
Proof. exact split_join. Qed.
Print Assumptions C02_split_join.
Theorem C02_split_lossless : forall d s,
  (s = join d (split s d false) \/ s = join d (split s d false) ++ [d]) /\
  split s d true = filter (fun t => negb (is_blank_item t)) (split s d false) /\
  (forall ig t, In t (split s d ig) -> ~ In d t /\ (ig = true -> ~ blank t)).
Proof. exact (fun d s => conj (split_false_lossless d s) (conj (split_true_filters d s) (split_tokens d s))). Qed.
Print Assumptions C02_split_lossless.
Example C02_example : Forall (fun t => ~ In ","%char t /\ ~ blank t) [S_ "K+"; S_ "pi-"] /\
  split (S_ "K+,pi-") ","%char true = [S_ "K+"; S_ "pi-"].
Proof.
  split; [|reflexivity]. repeat constructor; try (intros [|]; discriminate); unfold blank; simpl; intuition discriminate.
Qed.

(** ** C03 *)
(** The full claim: for a non-empty pattern the call terminates and substitutes every occurrence, left to right. *)
Definition C03_claim (old new s : str) : Prop :=
  exists fuel r, replaceAll fuel s old new = Ok r /\ substituted old new s r.

Theorem C03_replaceAll_partial : forall old new s,
  old <> [] -> List.length old <= List.length new ->
  (forall c o, old = c :: o -> ~ In c (skipn (List.length old) new)) ->
  forall fuel, List.length s < fuel -> exists r, replaceAll fuel s old new = Ok r /\ substituted old new s r.
Proof. exact replaceAll_correct. Qed.
Print Assumptions C03_replaceAll_partial.
Example C03_example : replaceAll 100 (S_ "D0{K+,D0}") (S_ "D0") (S_ "Dbar0") = Ok (S_ "Dbar0{K+,Dbar0}") /\
  (forall c o, S_ "D0" = c :: o -> ~ In c (skipn (List.length (S_ "D0")) (S_ "Dbar0"))).
Proof.
  split; [reflexivity|]. intros c o E. injection E as <- <-. simpl. intuition discriminate.
Qed.

(** The result demanded by the specification is unique, so a different result refutes the claim. *)
Theorem C03_spec_functional : forall old new s r1 r2, old <> [] ->
  substituted old new s r1 -> substituted old new s r2 -> r1 = r2.
Proof. exact (fun old new s r1 r2 H => substituted_functional old new H s r1 r2). Qed.

Theorem C03_replaceAll_terminates_partial : forall old new s, old <> [] -> List.length new <= List.length old ->
  forall fuel, List.length s < fuel -> exists r, replaceAll fuel s old new = Ok r.
Proof. exact replaceAll_terminates. Qed.
Print Assumptions C03_replaceAll_terminates_partial.

(** A shorter replacement skips an occurrence that directly follows a replaced one. *)
Theorem C03_replaceAll_short_refuted : exists old new s, old <> [] /\
  (exists r, substituted old new s r) /\
  (forall fuel r, replaceAll fuel s old new = Ok r -> ~ substituted old new s r).
Proof.
  exists (S_ "("), [], (S_ "(("). split; [discriminate|]. split.
  - exists []. apply (sub_hit (S_ "(") [] (S_ "(") []). apply (sub_hit (S_ "(") [] [] []). constructor.
  - intros fuel r E K.
    assert (K2 : substituted (S_ "(") [] (S_ "((") []).
    { apply (sub_hit (S_ "(") [] (S_ "(") []). apply (sub_hit (S_ "(") [] [] []). constructor. }
    apply (substituted_functional (S_ "(") [] ltac:(discriminate) _ _ _ K) in K2. subst r.
    destruct fuel as [|[|[|fuel]]]; discriminate E.
Qed.
Print Assumptions C03_replaceAll_short_refuted.

(** A longer replacement that contains the pattern past its own length never terminates. *)
Theorem C03_replaceAll_diverges_refuted : exists old new s, old <> [] /\
  (exists r, substituted old new s r) /\ (forall fuel, replaceAll fuel s old new = OutOfFuel).
Proof.
  exists (S_ "a"), (S_ "ba"), (S_ "a"). split; [discriminate|]. split.
  - exists (S_ "ba"). apply (sub_hit (S_ "a") (S_ "ba") [] []). constructor.
  - exact replaceAll_diverges.
Qed.
Print Assumptions C03_replaceAll_diverges_refuted.

(** ** C04 *)
(** The full claim is [forall s pat w, stringMatchesWildcard s pat w = Ok true <-> glob w pat s]. *)
Theorem C04_wildcard_total : forall s pat w, exists b, stringMatchesWildcard s pat w = Ok b.
Proof. exact wildcard_total. Qed.
Print Assumptions C04_wildcard_total.

Theorem C04_wildcard_partial : forall s p q w, ~ In w p -> ~ In w q ->
  (stringMatchesWildcard s p w = Ok true <-> glob w p s) /\
  (stringMatchesWildcard s (p ++ [w]) w = Ok true <-> glob w (p ++ [w]) s) /\
  (q <> [] -> List.length p + List.length q <= List.length s ->
   (forall i j u v, skipn i s = q ++ u -> skipn j s = q ++ v -> i = j) ->
   stringMatchesWildcard s (p ++ w :: q) w = Ok true <-> glob w (p ++ w :: q) s).
Proof.
  intros s p q w Hp Hq. split; [|split].
  - rewrite wildcard_no_star, glob_no_star by assumption. rewrite <- str_eqb_eq.
    split; intro H; [now injection H|now rewrite H].
  - rewrite wildcard_trailing, glob_app_prefix by assumption. split.
    + intro H. injection H as H. apply prefixb_spec in H as [t ->]. exists t. split; [reflexivity|].
      rewrite <- (app_nil_r t). constructor. constructor.
    + intros (t & -> & _). f_equal. apply prefixb_spec. now exists t.
  - intros. now apply wildcard_middle_glob.
Qed.
Print Assumptions C04_wildcard_partial.
Example C04_example : stringMatchesWildcard (S_ "D0_mass") (S_ "D0*mass") "*" = Ok true /\
  (forall i j u v, skipn i (S_ "D0_mass") = S_ "mass" ++ u -> skipn j (S_ "D0_mass") = S_ "mass" ++ v -> i = j).
Proof.
  split; [reflexivity|]. intros i j u v H1 H2.
  assert (G : forall k w, skipn k (S_ "D0_mass") = S_ "mass" ++ w -> k = 3).
  { intros k w H. destruct k as [|[|[|[|[|[|[|[|k]]]]]]]]; try discriminate H; reflexivity. }
  now rewrite (G _ _ H1), (G _ _ H2).
Qed.

(** A string the pattern describes is rejected ... *)
Theorem C04_wildcard_false_negative_refuted : exists s pat w,
  glob w pat s /\ stringMatchesWildcard s pat w = Ok false.
Proof.
  exists (S_ "abcb"), (S_ "a*b"), "*"%char. split; [|reflexivity].
  apply (glob_char _ "a"%char); [discriminate|]. apply (glob_star _ (S_ "b") (S_ "bc") (S_ "b")).
  apply glob_char; [discriminate|constructor].
Qed.
Print Assumptions C04_wildcard_false_negative_refuted.
(** ... and one it does not describe is accepted. *)
Theorem C04_wildcard_false_positive_refuted : exists s pat w,
  ~ glob w pat s /\ stringMatchesWildcard s pat w = Ok true.
Proof.
  exists (S_ "a"), (S_ "a*a"), "*"%char. split; [|reflexivity].
  intro H. apply (glob_app_prefix _ (S_ "a") (S_ "*a")) in H; [|simpl; intuition discriminate].
  destruct H as (t & E & H). injection E as <-. apply glob_star_iff in H as (u & t & E & H).
  apply glob_no_star in H; [|simpl; intuition discriminate]. subst. destruct u; discriminate.
Qed.
Print Assumptions C04_wildcard_false_positive_refuted.

(** ** C05 *)
Theorem C05_editDistance : forall a b,
  edits (editDistance a b) a b /\ (forall n, edits n a b -> editDistance a b <= n).
Proof. exact editDistance_minimal. Qed.
Print Assumptions C05_editDistance.
Example C05_example : editDistance (S_ "kitten") (S_ "sitting") = 3.
Proof. reflexivity. Qed.

(** ** C06 *)
Theorem C06_minSwaps_count : forall a par,
  Permutation a (seq 0 (List.length a)) -> List.length a <= List.length par ->
  exists m e, minSwaps a par = Ok (m, e) /\
    (exists ps, sorts ps a /\ List.length ps = m) /\ (forall ps, sorts ps a -> m <= List.length ps).
Proof. exact minSwaps_count. Qed.
Print Assumptions C06_minSwaps_count.

(** The sign is the product of the exchange parities when the permutation is a product of disjoint exchanges. *)
Theorem C06_minSwaps_sign_partial : forall a par,
  Permutation a (seq 0 (List.length a)) -> List.length a <= List.length par ->
  (forall k, k < List.length a -> nth (nth k a 0) a 0 = k) ->
  exists ps, sorts ps a /\ minSwaps a par = Ok (List.length ps, collected par ps) /\
             (forall qs, sorts qs a -> List.length ps <= List.length qs).
Proof. exact minSwaps_sign_involution. Qed.
Print Assumptions C06_minSwaps_sign_partial.
Example C06_example : minSwaps [1; 0; 3; 2] [-1; -1; 1; 1]%Z = Ok (2, (-1)%Z) /\
  (forall k, k < 4 -> nth (nth k [1; 0; 3; 2] 0) [1; 0; 3; 2] 0 = k).
Proof. split; [reflexivity|]. intros k Hk. do 4 (destruct k as [|k]; [reflexivity|]). lia. Qed.

(** A cyclic permutation of three identical fermions: two exchanges sort it, so the sign should be (-1)(-1) = 1,
    and -1 is returned. *)
Theorem C06_minSwaps_sign_refuted : exists a par m e,
  Permutation a (seq 0 (List.length a)) /\ Forall (fun x => x = (-1)%Z) par /\ List.length par = List.length a /\
  minSwaps a par = Ok (m, e) /\
  exists ps, sorts ps a /\ List.length ps = m /\ e <> collected par ps.
Proof.
  exists [1; 2; 0], [-1; -1; -1]%Z, 2, (-1)%Z. split; [|split; [|split; [reflexivity|split; [reflexivity|]]]].
  - apply perm_trans with [1; 0; 2]; [constructor; apply perm_swap|apply perm_swap].
  - repeat constructor.
  - exists [(0, 2); (1, 2)]. split; [|split; [reflexivity|discriminate]]. split; [|reflexivity].
    repeat constructor; simpl; lia.
Qed.
Print Assumptions C06_minSwaps_sign_refuted.

(** ** C07 *)
Theorem C07_trim : forall s, trimmed s (trim s) /\ (forall t, trimmed s t -> t = trim s) /\ trim (trim s) = trim s.
Proof.
  exact (fun s => conj (trim_trimmed s) (conj (fun t H => trimmed_unique s t _ H (trim_trimmed s)) (trim_idempotent s))).
Qed.
Print Assumptions C07_trim.
Example C07_example : trim (S_ "  a b  ") = S_ "a b".
Proof. reflexivity. Qed.

(** ** C08 *)
(** The full claim is injectivity of the key; texts that differ in one character get different keys, *)
Theorem C08_key_partial : forall u v c d, c <> d -> FNV1a_hash (u ++ c :: v) <> FNV1a_hash (u ++ d :: v).
Proof. exact FNV_single_char. Qed.
Print Assumptions C08_key_partial.
Example C08_example : FNV1a_hash (S_ "x[0]") <> FNV1a_hash (S_ "x[1]").
Proof. exact (C08_key_partial (S_ "x[") (S_ "]") "0"%char "1"%char ltac:(discriminate)). Qed.
(** but it is not injective: both texts are possible source texts of products and sums of parameters. *)
Theorem C08_key_refuted : exists a b, a <> b /\ FNV1a_hash a = FNV1a_hash b.
Proof. exists (S_ "x17*y89+z82"), (S_ "x25*y70+z3"). split; [discriminate|vm_compute; reflexivity]. Qed.
Print Assumptions C08_key_refuted.

(** ** swapChars: applying it twice is the identity (used on parameter names). *)
Theorem C60_swapChars_involutive : forall s a b, swapChars (swapChars s a b) a b = s.
Proof. exact swapChars_involutive. Qed.
Print Assumptions C60_swapChars_involutive.
