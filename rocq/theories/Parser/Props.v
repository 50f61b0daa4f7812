From Verif.Common Require Import Prelude.
From Verif.Parser Require Import Model Spec Proofs Returns.

(** ** C21 *)
Theorem C21_documented : forall X endpoint unary pow div mul sub add gt lt and_ pack, proper_functions unary ->
  forall ts x, denotes X endpoint unary documented (operation pow div mul sub add gt lt and_ pack) 9 ts x ->
  exists f0, forall f, f0 <= f -> parseTokens X endpoint unary pow div mul sub add gt lt and_ pack f ts = Ok x.
Proof. exact parse_documented. Qed.
Print Assumptions C21_documented.
(** The usual grammar, where * and / have one precedence and + and - too, gives the same values in arithmetic. *)
Theorem C21_conventional : forall X endpoint unary pow div mul sub add gt lt and_ pack, proper_functions unary ->
  (forall a b c, div (mul a b) c = mul a (div b c)) -> (forall a b c, sub (add a b) c = add a (sub b c)) ->
  forall ts x, denotes X endpoint unary conventional (operation pow div mul sub add gt lt and_ pack) 7 ts x ->
  exists f0, forall f, f0 <= f -> parseTokens X endpoint unary pow div mul sub add gt lt and_ pack f ts = Ok x.
Proof. exact parse_conventional. Qed.
Print Assumptions C21_conventional.
(** A text has one value. *)
Theorem C21_unambiguous : forall X endpoint unary pow div mul sub add gt lt and_ pack, proper_functions unary ->
  forall ts x y, denotes X endpoint unary documented (operation pow div mul sub add gt lt and_ pack) 9 ts x ->
  denotes X endpoint unary documented (operation pow div mul sub add gt lt and_ pack) 9 ts y -> x = y.
Proof.
  intros X endpoint unary pow div mul sub add gt lt and_ pack HP ts x y H1 H2.
  apply (parse_documented X endpoint unary) in H1 as [f1 E1]; [|exact HP]. apply (parse_documented X endpoint unary) in H2 as [f2 E2]; [|exact HP].
  specialize (E1 (f1 + f2)). specialize (E2 (f1 + f2)). rewrite E1 in E2 by lia. specialize (E2 ltac:(lia)). congruence.
Qed.
Print Assumptions C21_unambiguous.

(** Integers; one function, neg. *)
Local Open Scope Z_scope.
Definition zend (t : str) : Z := if str_eqb t (S_ "x") then 7 else if str_eqb t (S_ "y") then 2 else 3.
Definition zfun (t : str) : option (Z -> Z) := if str_eqb t (S_ "neg") then Some Z.opp else if str_eqb t (S_ "half") then Some (fun a => a / 2) else None.
Definition zb (b : bool) : Z := if b then 1 else 0.
Definition zparse ts := parseTokens Z zend zfun Z.pow Z.div Z.mul Z.sub Z.add (fun a b => zb (b <? a)) (fun a b => zb (a <? b)) Z.mul Z.add 99 ts.
Definition zop := operation Z.pow Z.div Z.mul Z.sub Z.add (fun a b => zb (b <? a)) (fun a b => zb (a <? b)) Z.mul Z.add.
(** x - y - neg ( x + y ) ^ y *)
Definition words : list str := map S_ ["x"; "-"; "y"; "-"; "neg"; "("; "x"; "+"; "y"; ")"; "^"; "y"]%string.
Example C21_example : proper_functions zfun /\ denotes Z zend zfun documented zop 9 words (-76) /\ zparse words = Ok (-76).
Proof.
  assert (A : forall t, t = S_ "x" \/ t = S_ "y" -> atom Z zfun documented t).
  { intros t [-> | ->]; (split; [reflexivity|]; split; [cbn; intuition discriminate|]; eexists; eexists; split; [reflexivity|split; discriminate]). }
  split; [|split].
  - intros f g H. unfold zfun in H. destruct (str_eqb_spec f (S_ "neg")) as [-> | _].
    + split; [cbn; intuition discriminate|]. eexists; eexists; split; [reflexivity|split; discriminate].
    + destruct (str_eqb_spec f (S_ "half")) as [-> | _]; [|discriminate].
      split; [cbn; intuition discriminate|]. eexists; eexists; split; [reflexivity|split; discriminate].
  - do 5 apply DUp.
    change (-76) with (zop (S_ "-") (zop (S_ "-") 7 2) (zop (S_ "^") (Z.opp (zop (S_ "+") 7 2)) 2)).
    apply (DBin Z zend zfun documented zop 3 [S_ "-"] (S_ "-") (map S_ ["x"; "-"; "y"]%string)); [reflexivity|now left| |].
    + apply (DBin Z zend zfun documented zop 3 [S_ "-"] (S_ "-") [S_ "x"]); [reflexivity|now left| |].
      * do 4 apply DUp. apply (DAtom Z zend). apply A. now left.
      * do 3 apply DUp. apply (DAtom Z zend). apply A. now right.
    + do 2 apply DUp. apply (DBin Z zend zfun documented zop 0 [S_ "^"] (S_ "^") (map S_ ["neg"; "("; "x"; "+"; "y"; ")"]%string)); [reflexivity|now left| |].
      * apply DUp. apply (DFunParen Z zend zfun documented zop (S_ "neg") Z.opp (map S_ ["x"; "+"; "y"]%string)); [reflexivity|].
        do 4 apply DUp. apply (DBin Z zend zfun documented zop 4 [S_ "+"] (S_ "+") [S_ "x"]); [reflexivity|now left| |].
        -- do 5 apply DUp. apply (DAtom Z zend). apply A. now left.
        -- do 4 apply DUp. apply (DAtom Z zend). apply A. now right.
      * apply (DAtom Z zend). apply A. now right.
  - vm_compute. reflexivity.
Qed.

(** ** C67 *)
(** Reading returns, or fails, for every list of tokens. *)
Theorem C67_returns_partial : forall X endpoint unary pow div mul sub add gt lt and_ pack ts,
  exists f0, forall f, (f0 <= f)%nat -> parseTokens X endpoint unary pow div mul sub add gt lt and_ pack f ts <> OutOfFuel.
Proof.
  intros. exists (2 * List.length ts + 2)%nat. intros f L.
  apply (proj2 (returns X endpoint unary pow div mul sub add gt lt and_ pack f) ts). lia.
Qed.
Print Assumptions C67_returns_partial.
(** A sign in front of an operand reads past the end of the operands instead of being an error. *)
Theorem C67_sign_refuted : exists t, atom Z zfun documented t /\ zparse [S_ "-"; t] = UB /\ zparse [t; S_ "*"; S_ "-"; t] = UB.
Proof.
  exists (S_ "x"). split; [|split; vm_compute; reflexivity]. split; [reflexivity|]. split; [cbn; intuition discriminate|].
  eexists; eexists; split; [reflexivity|split; discriminate].
Qed.
Print Assumptions C67_sign_refuted.
(** Functions written one after the other are applied in the wrong order: half neg 7 is neg ( half 7 ) = -3 and not half ( neg 7 ) = -4. *)
Theorem C67_compose_refuted : exists f g t v w, zparse [f; g; t] = Ok v /\ zparse [f; S_ "("; g; t; S_ ")"] = Ok w /\ v <> w.
Proof.
  exists (S_ "half"), (S_ "neg"), (S_ "x"), (-3), (-4). split; [|split; [|lia]]; vm_compute; reflexivity. Qed.
Print Assumptions C67_compose_refuted.
(** Two operands without an operator between them: the first is returned, after a printed message only. *)
Theorem C67_missing_operator_refuted : exists a b v, zparse [a; b] = Ok v /\ zparse [a] = Ok v.
Proof. exists (S_ "x"), (S_ "y"), 7. split; vm_compute; reflexivity. Qed.
Print Assumptions C67_missing_operator_refuted.
(** Empty brackets read the first operand of an empty list. *)
Theorem C67_empty_refuted : exists ts, ts <> [] /\ zparse ts = UB /\ zparse [] = UB.
Proof. exists [S_ "("; S_ ")"]. split; [discriminate|]. split; vm_compute; reflexivity. Qed.
Print Assumptions C67_empty_refuted.
