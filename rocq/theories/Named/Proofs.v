From Verif.Common Require Import Prelude Writes.
From Verif.Named Require Import Model.

Section Proofs.
  Variables (T : Type) (T0 : T) (eqT : T -> T -> bool) (cast : str -> T * bool).
  Hypothesis eqT_spec : forall a b, eqT a b = true <-> a = b.

  Definition read (w : str) : T := if snd (cast w) then fst (cast w) else T0.

  Lemma set_words_ok words : forall pre, set_words T cast (List.length pre) words (pre ++ repeat T0 (List.length words)) = Ok (pre ++ map read words).
  Proof.
    induction words as [|w words IH]; intro pre; [reflexivity|]. cbn [set_words List.length repeat map]. unfold read at 1.
    destruct (cast w) as [v []]; cbn [fst snd].
    - destruct (set_at_Some (List.length pre) v (pre ++ T0 :: repeat T0 (List.length words))) as (l & E & _ & N); [rewrite app_length; simpl; lia|].
      rewrite E. cbn [of_opt bind].
      assert (El : l = (pre ++ [v]) ++ repeat T0 (List.length words)).
      { apply nth_error_ext_eq. intro j. rewrite N. destruct (Nat.eqb_spec j (List.length pre)) as [->|Nj].
        - rewrite nth_error_app1 by (rewrite app_length; simpl; lia). rewrite nth_error_app2, Nat.sub_diag by lia. reflexivity.
        - rewrite <- app_assoc. destruct (Nat.lt_ge_cases j (List.length pre)).
          + now rewrite !nth_error_app1 by lia.
          + rewrite !nth_error_app2 by lia. destruct (j - List.length pre) eqn:Ej; [lia|reflexivity]. }
      rewrite El. replace (S (List.length pre)) with (List.length (pre ++ [v])) by (rewrite app_length; simpl; lia).
      rewrite IH. now rewrite <- app_assoc.
    - replace (S (List.length pre)) with (List.length (pre ++ [T0])) by (rewrite app_length; simpl; lia).
      replace (pre ++ T0 :: repeat T0 (List.length words)) with ((pre ++ [T0]) ++ repeat T0 (List.length words)) by now rewrite <- app_assoc.
      rewrite IH. now rewrite <- app_assoc.
  Qed.

  Lemma setFromOptions_ok line arr : setFromOptionsParser T T0 cast line arr = Ok (match line with Some (_ :: w :: ws) => map read (w :: ws) | _ => arr end).
  Proof.
    destruct line as [[|n [|w ws]]|]; try reflexivity. unfold setFromOptionsParser. cbn [List.length Nat.ltb Nat.leb tl Nat.sub].
    exact (set_words_ok (w :: ws) []).
  Qed.

  Lemma all_read words : Forall (fun w => snd (cast w) = true) words -> map read words = map (fun w => fst (cast w)) words.
  Proof. induction 1 as [|w ws H _ IH]; [reflexivity|]. cbn [map]. rewrite IH. unfold read. now rewrite H. Qed.

  Lemma named_given n w ws arr : Forall (fun v => snd (cast v) = true) (w :: ws) ->
    setFromOptionsParser T T0 cast (Some (n :: w :: ws)) arr = Ok (map (fun v => fst (cast v)) (w :: ws)).
  Proof. intro H. rewrite setFromOptions_ok. now rewrite all_read. Qed.

  Lemma named_default line arr : match line with Some (_ :: _ :: _) => False | _ => True end ->
    setFromOptionsParser T T0 cast line arr = Ok arr.
  Proof. rewrite setFromOptions_ok. destruct line as [[|n [|w ws]]|]; intros; try reflexivity. contradiction. Qed.

  Lemma vector_argument_ok vs line : forall k acc fuel, List.length vs < fuel -> Forall (fun v => v <> T0) vs ->
    (forall i v, nth_error vs i = Some v -> exists n w ws, line (k + i) = Some (n :: w :: ws) /\ cast w = (v, true)) ->
    match line (k + List.length vs) with Some (_ :: _ :: _) => False | _ => True end ->
    getVectorArgument_loop T T0 eqT cast fuel line T0 k acc = Ok (acc ++ vs).
  Proof.
    induction vs as [|v vs IH]; intros k acc fuel Hf HN HL HE.
    - destruct fuel as [|fuel]; [simpl in Hf; lia|]. cbn [getVectorArgument_loop List.length] in *. rewrite Nat.add_0_r in HE.
      unfold named. rewrite named_default by assumption. cbn [bind getVal nth_error]. rewrite (proj2 (eqT_spec T0 T0) eq_refl). now rewrite app_nil_r.
    - destruct fuel as [|fuel]; [simpl in Hf; lia|]. cbn [getVectorArgument_loop].
      destruct (HL 0 v eq_refl) as (n & w & ws & EL & EC). rewrite Nat.add_0_r in EL. unfold named. rewrite setFromOptions_ok, EL. cbn [map bind].
      unfold getVal. cbn [nth_error]. unfold read. rewrite EC. cbn [fst snd bind]. apply Forall_cons_iff in HN as [Hv HN].
      destruct (eqT v T0) eqn:Ev; [apply eqT_spec in Ev; contradiction|]. rewrite IH.
      + now rewrite <- app_assoc.
      + simpl in Hf. lia.
      + exact HN.
      + intros i v' Hi. destruct (HL (S i) v' Hi) as (n' & w' & ws' & E1 & E2). exists n', w', ws'. split; [|exact E2]. rewrite <- E1. f_equal. lia.
      + simpl in HE. replace (S k + List.length vs) with (k + S (List.length vs)) by lia. exact HE.
  Qed.
End Proofs.
