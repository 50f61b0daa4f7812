(** The parser returns for every list of tokens. *)
From Verif.Common Require Import Prelude.
From Verif.Parser Require Import Model Spec Proofs.

Lemma bind_out A B (r : res A) (k : A -> res B) : r <> OutOfFuel -> (forall a, r = Ok a -> k a <> OutOfFuel) -> bind r k <> OutOfFuel.
Proof. destruct r; cbn [bind]; intros H1 H2; try discriminate; auto. Qed.
Lemma erase_length A i (l : list A) : i < List.length l -> S (List.length (erase i l)) = List.length l.
Proof. revert i. induction l as [|a l IH]; intros [|i] H; simpl in *; try lia. specialize (IH i). lia. Qed.

Section Returns.
  Variable X : Type.
  Variable endpoint : str -> X.
  Variable unary : str -> option (X -> X).
  Variables (pow div mul sub add gt lt and_ pack : X -> X -> X).
  Notation parseTokens := (parseTokens X endpoint unary pow div mul sub add gt lt and_ pack).
  Notation collect := (collect X endpoint unary pow div mul sub add gt lt and_ pack).

  Lemma binary_loop_out o f fuel : forall pos ops xs, List.length ops < fuel + pos -> binary_loop X fuel o f pos ops xs <> OutOfFuel \/ List.length ops < pos.
  Proof.
    induction fuel as [|fuel IH]; intros pos ops xs H; [right; lia|]. left. cbn [binary_loop].
    destruct (nth_error ops pos) as [t|] eqn:E; [|discriminate].
    assert (Hp : pos < List.length ops) by (apply nth_error_Some; congruence).
    destruct (negb (str_eqb t o)).
    - destruct (IH (S pos) ops xs) as [K|K]; [lia|exact K|lia].
    - destruct (nth_error xs pos); [|discriminate]. destruct (nth_error xs (S pos)); [|discriminate].
      pose proof (erase_length _ pos ops Hp). destruct (IH pos (erase pos ops) (erase (S pos) (put pos (f x x0) xs))) as [K|K]; [lia|exact K|lia].
  Qed.
  Lemma process_binary_out fs : forall ops xs, processBinaryOperators X fs ops xs <> OutOfFuel.
  Proof.
    induction fs as [|[o f] fs IH]; intros ops xs; cbn [processBinaryOperators]; [discriminate|]. apply bind_out.
    - destruct (binary_loop_out o f (S (List.length ops)) 0 ops xs); [lia|assumption|lia].
    - intros [ops' xs'] _. apply IH.
  Qed.
  Lemma process_unary_out fuel : forall pos ops xs, List.length ops < fuel + pos -> processUnaryOperators X unary fuel pos ops xs <> OutOfFuel \/ List.length ops < pos.
  Proof.
    induction fuel as [|fuel IH]; intros pos ops xs H; [right; lia|]. left. cbn [processUnaryOperators].
    destruct (nth_error ops pos) as [t|] eqn:E; [|discriminate].
    assert (Hp : pos < List.length ops) by (apply nth_error_Some; congruence).
    destruct (unary t) as [f|].
    - destruct (nth_error xs pos) as [a|]; [|discriminate]. pose proof (erase_length _ pos ops Hp).
      destruct (IH pos (erase pos ops) (put pos (f a) xs)) as [K|K]; [lia|exact K|lia].
    - destruct (IH (S pos) ops xs) as [K|K]; [lia|exact K|lia].
  Qed.
  Lemma matching_out ts : forall d, matching d ts <> OutOfFuel /\ forall a b, matching d ts = Ok (a, b) -> List.length a + List.length b < List.length ts.
  Proof.
    induction ts as [|t ts IH]; intro d; cbn [matching]; [split; discriminate|]. destruct (first t) as [c|]; [|split; discriminate].
    cbv zeta. set (e := if Ascii.eqb c "(" then S d else if Ascii.eqb c ")" then d - 1 else d). destruct (Nat.eqb e 0).
    - split; [discriminate|]. intros a b H. injection H as <- <-. simpl. lia.
    - destruct (IH e) as [I1 I2]. destruct (matching e ts) as [[a' b']| | |]; cbn [bind]; try (split; [easy|discriminate]).
      split; [discriminate|]. intros a b H. injection H as <- <-. specialize (I2 _ _ eq_refl). simpl. lia.
  Qed.
  Lemma returns f : (forall ts, 2 * List.length ts < f -> collect f ts <> OutOfFuel) /\ (forall ts, 2 * List.length ts + 1 < f -> parseTokens f ts <> OutOfFuel).
  Proof.
    induction f as [|f [IC IP]]; [split; intros; lia|]. split.
    - intros ts H. rewrite collect_S. destruct ts as [|t r]; [discriminate|]. cbn [List.length] in H. destruct (first t) as [c|]; [|discriminate].
      destruct (Ascii.eqb c "(").
      + assert (HF : findMatchingBracket r <> OutOfFuel /\ forall a b, findMatchingBracket r = Ok (a, b) -> List.length a + List.length b < List.length r).
        { unfold findMatchingBracket. destruct r; [split; discriminate|]. apply matching_out. }
        destruct HF as [H1 H2]. apply bind_out; [exact H1|]. intros [a b] E. specialize (H2 _ _ E).
        apply bind_out; [apply IP; lia|]. intros x _. apply bind_out; [apply IC; lia|]. intros [ops xs] _. discriminate.
      + destruct (_ || _)%bool; (apply bind_out; [apply IC; lia|]; intros [ops xs] _; discriminate).
    - intros ts H. rewrite parse_S. apply bind_out; [apply IC; lia|]. intros [ops xs] _. apply bind_out.
      + destruct (process_unary_out (S (List.length ops)) 0 ops xs); [lia|assumption|lia].
      + intros [ops' xs'] _. apply bind_out; [apply process_binary_out|]. intros [o x] _. destruct x; discriminate.
  Qed.
End Returns.
