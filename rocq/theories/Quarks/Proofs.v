(** Proofs about quark contents. *)
From Verif.Quarks Require Import Model Spec.

Lemma zip_length f a : forall b, List.length a = List.length b -> List.length (zip f a b) = List.length a.
Proof. induction a as [|x a IH]; intros [|y b] H; cbn in *; try discriminate; auto. Qed.

Lemma zip_nth f a : f 0%Z 0%Z = 0%Z -> forall b k, List.length a = List.length b -> num (zip f a b) k = f (num a k) (num b k).
Proof.
  intros F. unfold num. induction a as [|x a IH]; intros [|y b] k H; cbn in H; try discriminate; cbn [zip].
  - destruct k; cbn; auto.
  - destruct k as [|k]; cbn [nth]; auto.
Qed.

Lemma ext a b : flavours a -> flavours b -> (forall k, num a k = num b k) -> a = b.
Proof.
  intros A B H. unfold flavours in *. apply (nth_ext _ _ 0%Z 0%Z); [congruence|]. intros n _. apply H.
Qed.

Lemma qadd_wf a b : flavours a -> flavours b -> flavours (qadd a b).
Proof. unfold flavours, qadd. intros A B. rewrite zip_length; congruence. Qed.
Lemma qsub_wf a b : flavours a -> flavours b -> flavours (qsub a b).
Proof. unfold flavours, qsub. intros A B. rewrite zip_length; congruence. Qed.
Lemma qanti_wf a : flavours a -> flavours (qanti a).
Proof. unfold flavours, qanti. rewrite map_length. auto. Qed.
Lemma vacuum_wf : flavours vacuum.
Proof. reflexivity. Qed.

Lemma qadd_num a b k : flavours a -> flavours b -> num (qadd a b) k = (num a k + num b k)%Z.
Proof. unfold flavours, qadd. intros A B. apply zip_nth; [reflexivity|congruence]. Qed.
Lemma qsub_num a b k : flavours a -> flavours b -> num (qsub a b) k = (num a k - num b k)%Z.
Proof. unfold flavours, qsub. intros A B. apply zip_nth; [reflexivity|congruence]. Qed.
Lemma qanti_num a k : num (qanti a) k = (- num a k)%Z.
Proof. unfold num, qanti. change 0%Z with ((-1) * 0)%Z at 1. rewrite map_nth. lia. Qed.
Lemma vacuum_num k : num vacuum k = 0%Z.
Proof. unfold num, vacuum. do 7 (destruct k as [|k]; [reflexivity|]). reflexivity. Qed.

Lemma qeqb_eq a : forall b, qeqb a b = true <-> a = b.
Proof.
  induction a as [|x a IH]; intros [|y b]; cbn [qeqb]; split; intro H; try easy.
  - apply andb_true_iff in H as [H1 H2]. apply Z.eqb_eq in H1. apply IH in H2. congruence.
  - injection H as -> ->. rewrite Z.eqb_refl. now apply IH.
Qed.
Lemma is_vacuum_eq q : flavours q -> (is_vacuum q = true <-> q = vacuum).
Proof.
  intros F. unfold is_vacuum. rewrite forallb_forall. split.
  - intros H. apply ext; [auto|apply vacuum_wf|]. intros k. rewrite vacuum_num. unfold num.
    destruct (Nat.ltb_spec k (List.length q)) as [L|L]; [|apply nth_overflow; auto].
    specialize (H (nth k q 0%Z) (nth_In _ _ L)). apply Z.eqb_eq in H. auto.
  - intros -> x H. unfold vacuum in H. apply repeat_spec in H. subst. reflexivity.
Qed.

(** *** Combination *)
Lemma combine_ok f a b : b <> [] -> combine f a b = Ok (flat_map (fun x => map (fun y => f x y) b) a).
Proof.
  intros Nb. unfold combine. destruct (Nat.leb_spec (List.length a * List.length b) 1) as [L|L]; [|reflexivity].
  destruct a as [|x [|x2 a]]; destruct b as [|y [|y2 b]]; try congruence; cbn in L; try lia; reflexivity.
Qed.

Lemma product_length {A B C} (f : A -> B -> C) (a : list A) (b : list B) : List.length (flat_map (fun x => map (fun y => f x y) b) a) = List.length a * List.length b.
Proof. induction a as [|x a IH]; cbn [flat_map]; [reflexivity|]. rewrite app_length, map_length, IH. reflexivity. Qed.

Lemma product_nth {A B C} (f : A -> B -> C) (b : list B) (dA : A) (dB : B) (dC : C) : forall (a : list A) i j, i < List.length a -> j < List.length b ->
  nth (i * List.length b + j) (flat_map (fun x => map (fun y => f x y) b) a) dC = f (nth i a dA) (nth j b dB).
Proof.
  induction a as [|x a IH]; intros i j Hi Hj; cbn [List.length flat_map] in *; [lia|].
  destruct i as [|i].
  - cbn [Nat.mul Nat.add nth]. rewrite app_nth1 by (rewrite map_length; auto).
    rewrite (nth_indep _ dC (f x dB)) by (rewrite map_length; auto). apply (map_nth (fun y => f x y)).
  - rewrite app_nth2 by (rewrite map_length; cbn; nia). rewrite map_length.
    replace (S i * List.length b + j - List.length b) with (i * List.length b + j) by (cbn; lia). cbn [nth]. apply IH; lia.
Qed.

Lemma combine_contents f a b : (forall x y, flavours x -> flavours y -> flavours (f x y)) -> contents a -> contents b ->
  exists c, combine f a b = Ok c /\ contents c.
Proof.
  intros F [Na Fa] [Nb Fb]. rewrite combine_ok by auto. eexists. split; [reflexivity|]. split.
  - intros E. apply (f_equal (@List.length _)) in E. rewrite product_length in E. destruct a; [auto|]. destruct b; [auto|]. cbn in E. lia.
  - apply Forall_forall. intros z Hz. apply in_flat_map in Hz as (x & Hx & Hz). apply in_map_iff in Hz as (y & <- & Hy).
    rewrite Forall_forall in Fa, Fb. auto.
Qed.

Lemma combine_in f a b c z : b <> [] -> combine f a b = Ok c -> (In z c <-> exists x y, In x a /\ In y b /\ z = f x y).
Proof.
  intros Nb E. rewrite combine_ok in E by auto. assert (E' : flat_map (fun x => map (fun y => f x y) b) a = c) by congruence. rewrite <- E', in_flat_map.
  split.
  - intros (x & Hx & Hz). apply in_map_iff in Hz as (y & <- & Hy). eauto.
  - intros (x & y & Hx & Hy & ->). exists x. split; auto. apply in_map_iff. eauto.
Qed.

Lemma map_product {A B C D} (g : C -> D) (f : A -> B -> C) a b : map g (flat_map (fun x => map (fun y => f x y) b) a) = flat_map (fun x => map (fun y => g (f x y)) b) a.
Proof. induction a as [|x a IH]; cbn [flat_map]; auto. rewrite map_app, map_map, IH. reflexivity. Qed.

Lemma product_map {A B C A' B'} (f : A' -> B' -> C) (g : A -> A') (h : B -> B') a b :
  flat_map (fun x => map (fun y => f x y) (map h b)) (map g a) = flat_map (fun x => map (fun y => f (g x) (h y)) b) a.
Proof. induction a as [|x a IH]; cbn [flat_map map]; auto. rewrite map_map, IH. reflexivity. Qed.

Lemma product_ext {A B C} (f g : A -> B -> C) a b : (forall x y, In x a -> In y b -> f x y = g x y) ->
  flat_map (fun x => map (fun y => f x y) b) a = flat_map (fun x => map (fun y => g x y) b) a.
Proof.
  induction a as [|x a IH]; intros H; cbn [flat_map]; auto. f_equal.
  - apply map_ext_in. intros y Hy. apply H; auto. left. auto.
  - apply IH. intros. apply H; auto. right. auto.
Qed.

Lemma qanti_qadd a b : flavours a -> flavours b -> qanti (qadd a b) = qadd (qanti a) (qanti b).
Proof.
  intros A B. apply ext; auto using qanti_wf, qadd_wf. intros k. rewrite qanti_num, !qadd_num, !qanti_num by auto using qanti_wf. lia.
Qed.
Lemma qsub_anti a b : flavours a -> flavours b -> qsub a b = qadd a (qanti b).
Proof.
  intros A B. apply ext; auto using qanti_wf, qadd_wf, qsub_wf. intros k. rewrite qsub_num, qadd_num, qanti_num by auto using qanti_wf. lia.
Qed.
Lemma qanti_qanti a : flavours a -> qanti (qanti a) = a.
Proof. intros A. apply ext; auto using qanti_wf. intros k. rewrite !qanti_num. lia. Qed.

Lemma anti_anti a : Forall flavours a -> anti (anti a) = a.
Proof.
  intros F. unfold anti. rewrite map_map. rewrite <- (map_id a) at 2. apply map_ext_in. intros x Hx. apply qanti_qanti. rewrite Forall_forall in F. auto.
Qed.
Lemma anti_contents a : contents a -> contents (anti a).
Proof.
  intros [N F]. unfold anti. split; [destruct a; [auto|discriminate]|]. apply Forall_forall. intros x H. apply in_map_iff in H as (y & <- & Hy).
  apply qanti_wf. rewrite Forall_forall in F. auto.
Qed.
Lemma anti_add a b c : contents a -> contents b -> add a b = Ok c -> add (anti a) (anti b) = Ok (anti c).
Proof.
  intros [Na Fa] [Nb Fb] E. unfold add in *. rewrite combine_ok in E by auto. rewrite combine_ok by (unfold anti; destruct b; [auto|discriminate]).
  assert (Ec : flat_map (fun x => map (fun y => qadd x y) b) a = c) by congruence. rewrite <- Ec. unfold anti. rewrite map_product, product_map.
  f_equal. apply product_ext. intros x y Hx Hy. rewrite Forall_forall in Fa, Fb. symmetry. apply qanti_qadd; auto.
Qed.
Lemma subtract_anti a b : contents a -> contents b -> subtract a b = add a (anti b).
Proof.
  intros [Na Fa] [Nb Fb]. unfold subtract, add. rewrite !combine_ok by (unfold anti; destruct b; [auto|discriminate]). f_equal. unfold anti.
  rewrite <- (map_id a) at 2. rewrite product_map. apply product_ext. intros x y Hx Hy. rewrite Forall_forall in Fa, Fb. apply qsub_anti; auto.
Qed.

(** *** Comparison *)
Lemma same_spec a b : same a b = true <-> exists x, In x a /\ In x b.
Proof.
  unfold same. rewrite existsb_exists. split.
  - intros (x & Hx & H). apply existsb_exists in H as (y & Hy & E). apply qeqb_eq in E. subst. eauto.
  - intros (x & Ha & Hb). exists x. split; auto. apply existsb_exists. exists x. split; auto. now apply qeqb_eq.
Qed.

(** *** Reading *)
Lemma bump_length i d q : List.length (bump i d q) = List.length q.
Proof. revert i. induction q as [|x q IH]; intros [|i]; cbn [bump List.length]; auto. Qed.
Lemma bump_num i d q k : i < List.length q -> num (bump i d q) k = (num q k + if Nat.eqb i k then d else 0)%Z.
Proof.
  unfold num. revert i k. induction q as [|x q IH]; intros i k H; cbn [List.length] in H; [lia|].
  destruct i as [|i]; destruct k as [|k]; cbn [bump nth Nat.eqb]; try lia. apply IH. lia.
Qed.

Definition read_delta (c : ascii) (k : nat) : Z :=
  match position gNames (to_lower c) 0 with
  | Some i => if Nat.eqb i k then if is_lower c then 1 else -1 else 0
  | None => 0
  end%Z.

Lemma position_lt c i : position gNames c 0 = Some i -> i < 6.
Proof. unfold gNames. cbn [position]. repeat (destruct (Ascii.eqb _ _); [intros E; injection E as <-; lia|]). discriminate. Qed.

Lemma read_char_num q c k : flavours q -> flavours (read_char q c) /\ num (read_char q c) k = (num q k + read_delta c k)%Z.
Proof.
  intros F. unfold read_char, read_delta. destruct (position gNames (to_lower c) 0) as [i|] eqn:E; [|split; [auto|lia]].
  apply position_lt in E. unfold flavours in *. split; [rewrite bump_length; auto|]. rewrite bump_num by lia. destruct (Nat.eqb i k); auto.
Qed.

Lemma read_loop s k : forall q, flavours q -> flavours (fold_left read_char s q) /\ num (fold_left read_char s q) k = (num q k + fold_right Z.add 0 (map (fun c => read_delta c k) s))%Z.
Proof.
  induction s as [|c s IH]; intros q F; cbn [fold_left map fold_right]; [split; auto; lia|].
  destruct (read_char_num q c k F) as [F' N]. destruct (IH _ F') as [A B]. split; auto. rewrite B, N. lia.
Qed.

Lemma read_delta_spec k c : k < 6 -> read_delta c k = ((if Ascii.eqb c (lower_name k) then 1 else 0) - (if Ascii.eqb c (upper_name k) then 1 else 0))%Z.
Proof.
  intros H. do 6 (destruct k as [|k]; [clear H; destruct c as [[] [] [] [] [] [] [] []]; reflexivity|]). lia.
Qed.

Lemma count_delta s k : k < 6 -> fold_right Z.add 0%Z (map (fun c => read_delta c k) s) = (occurrences (lower_name k) s - occurrences (upper_name k) s)%Z.
Proof.
  intros H. unfold occurrences. induction s as [|c s IH]; cbn [map fold_right count_occ]; [reflexivity|]. rewrite IH, read_delta_spec by auto.
  destruct (Ascii.eqb_spec c (lower_name k)) as [E1|E1]; destruct (Ascii.eqb_spec c (upper_name k)) as [E2|E2];
  destruct (ascii_dec c (lower_name k)); destruct (ascii_dec c (upper_name k)); try congruence; lia.
Qed.

Lemma read_state_num s k : flavours (read_state s) /\ (k < 6 -> num (read_state s) k = (occurrences (lower_name k) s - occurrences (upper_name k) s)%Z).
Proof.
  unfold read_state. destruct (read_loop s k vacuum vacuum_wf) as [A B]. split; auto. intros H. rewrite B, vacuum_num, count_delta by auto. lia.
Qed.

(** *** Decay trees *)
Lemma particle_ind' (P : particle -> Prop) (H : forall nr own ds, Forall P ds -> P (Part nr own ds)) : forall p, P p.
Proof.
  fix IH 1. intros [nr own ds]. apply H. induction ds as [|d ds IHd]; constructor; [apply IH|exact IHd].
Qed.

Definition total (xs : list qstate) (x : qstate) := flavours x /\ forall k, num x k = fold_right Z.add 0%Z (map (fun y => num y k) xs).

Lemma sum_of_spec l : forall acc, contents acc -> Forall (fun r => exists b, r = Ok b /\ contents b) l ->
  exists c, sum_of acc l = Ok c /\ contents c /\
    forall z, In z c <-> exists x0 xs, In x0 acc /\ Forall2 (fun r x => exists b, r = Ok b /\ In x b) l xs /\ total (x0 :: xs) z.
Proof.
  induction l as [|r l IH]; intros acc Ca H; cbn [sum_of].
  - exists acc. split; auto. split; auto. intros z. split.
    + intros Hz. exists z, []. split; auto. split; [constructor|]. destruct Ca as [_ Fa]. rewrite Forall_forall in Fa. split; [auto|]. intros k. cbn. lia.
    + intros (x0 & xs & H0 & F & T). inversion F; subst. destruct T as [Tf Tn]. replace z with x0; auto.
      destruct Ca as [_ Fa]. rewrite Forall_forall in Fa. apply ext; auto. intros k. rewrite Tn. cbn. lia.
  - pose proof (Forall_inv H) as (b & -> & Cb). pose proof (Forall_inv_tail H) as H'. cbn [bind].
    destruct (combine_contents qadd acc b qadd_wf Ca Cb) as (c1 & E1 & C1). unfold add. rewrite E1. cbn [bind].
    destruct (IH c1 C1 H') as (c & E & C & S). exists c. split; auto. split; auto. intros z. rewrite S. destruct Ca as [_ Fa]. destruct Cb as [Nb Fb].
    rewrite Forall_forall in Fa, Fb. split.
    + intros (w & xs & Hw & F & [Tf Tn]). apply (combine_in qadd acc b c1 w Nb E1) in Hw as (x & y & Hx & Hy & ->).
      exists x, (y :: xs). split; auto. split; [constructor; eauto|]. split; auto. intros k. rewrite Tn. cbn [map fold_right].
      rewrite qadd_num by auto. lia.
    + intros (x & ys & Hx & F & [Tf Tn]). destruct ys as [|y xs]; [inversion F|].
      assert (Hy : exists b', Ok b = Ok b' /\ In y b') by (inversion F; auto). assert (F2 : Forall2 (fun r x => exists b, r = Ok b /\ In x b) l xs) by (inversion F; auto).
      destruct Hy as (b' & Eb & Hy). assert (b' = b) by congruence. subst b'.
      exists (qadd x y), xs. split; [apply (combine_in qadd acc b c1 _ Nb E1); eauto|]. split; auto. split; auto. intros k. rewrite Tn. cbn [map fold_right].
      rewrite qadd_num by auto. lia.
Qed.

Lemma listed_in d ds : fold_right (fun d P => listed d /\ P) True ds -> In d ds -> listed d.
Proof. induction ds as [|e ds IH]; cbn; [tauto|]. intros [A B] [-> | H]; auto. Qed.

Lemma daughters_spec ds : Forall (fun d => exists c, quarks d = Ok c /\ contents c /\ forall x, In x c <-> flavour d x) ds ->
  exists c, sum_of empty_content (map quarks ds) = Ok c /\ contents c /\
    forall z, In z c <-> exists xs, Forall2 flavour ds xs /\ total xs z.
Proof.
  intros H. destruct (sum_of_spec (map quarks ds) empty_content) as (c & E & C & S).
  - split; [discriminate|]. repeat constructor.
  - apply Forall_forall. intros r Hr. apply in_map_iff in Hr as (d & <- & Hd). rewrite Forall_forall in H. destruct (H d Hd) as (c & E & C & _). eauto.
  - exists c. split; auto. split; auto. intros z. rewrite S. split.
    + intros (x0 & xs & H0 & F & [Tf Tn]). destruct H0 as [<- | []]. exists xs. split.
      * clear - H F. revert xs F. induction ds as [|d ds IH]; intros xs F; inversion F as [|? x ? xs' Hx F']; subst; constructor.
        -- destruct Hx as (b & Eb & Hb). pose proof (Forall_inv H) as (c & Ec & _ & K). assert (b = c) by congruence. subst. apply K. auto.
        -- apply IH; auto. apply (Forall_inv_tail H).
      * split; auto. intros k. rewrite Tn. cbn [map fold_right]. rewrite vacuum_num. lia.
    + intros (xs & F & [Tf Tn]). exists vacuum, xs. split; [left; auto|]. split.
      * clear - H F. induction F as [|d x ds xs Hx F IH]; cbn [map]; constructor.
        -- pose proof (Forall_inv H) as (c & Ec & _ & K). exists c. split; auto. apply K. auto.
        -- apply IH. apply (Forall_inv_tail H).
      * split; auto. intros k. rewrite Tn. cbn [map fold_right]. rewrite vacuum_num. lia.
Qed.

Lemma quarks_spec : forall p, listed p -> exists c, quarks p = Ok c /\ contents c /\ forall x, In x c <-> flavour p x.
Proof.
  apply (particle_ind' (fun p => listed p -> exists c, quarks p = Ok c /\ contents c /\ forall x, In x c <-> flavour p x)).
  intros nr own ds IH [Co L]. cbn [quarks].
  assert (IH' : Forall (fun d => exists c, quarks d = Ok c /\ contents c /\ forall x, In x c <-> flavour d x) ds).
  { apply Forall_forall. intros d Hd. rewrite Forall_forall in IH. apply IH; auto. apply (listed_in d ds); auto. }
  destruct nr.
  - destruct (daughters_spec ds IH') as (c & E & C & S). exists c. split; auto. split; auto. intros x. rewrite S. split.
    + intros (xs & F & [Tf Tn]). apply (fl_sum own ds xs x); auto.
    + intros H. inversion H as [|? ? xs ? F Tf Tn]; subst. exists xs. split; auto. split; auto.
  - exists own. split; auto. split; auto. intros x. split; [constructor; auto|]. intros H. inversion H. auto.
Qed.

Lemma daughter_quarks_spec p : listed p -> exists c, daughter_quarks p = Ok c /\ contents c /\
  forall z, In z c <-> exists xs, Forall2 flavour (daughters_of p) xs /\ total xs z.
Proof.
  destruct p as [nr own ds]. intros [_ L]. unfold daughter_quarks. cbn [daughters_of]. apply daughters_spec.
  apply Forall_forall. intros d Hd. apply quarks_spec. apply (listed_in d ds); auto.
Qed.
