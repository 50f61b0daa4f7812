(** Sequences of writes to a memory indexed by a decidable type. *)
From Verif.Common Require Import Prelude.

Section Writes.
  Context {A V : Type} (eqb : A -> A -> bool) (eqb_spec : forall a b, reflect (a = b) (eqb a b)).
  Definition upd (m : A -> V) (a : A) (v : V) : A -> V := fun b => if eqb b a then v else m b.
  Definition writes (ws : list (A * V)) (m : A -> V) : A -> V :=
    fold_left (fun m w => upd m (fst w) (snd w)) ws m.

  Lemma writes_out ws : forall m a, ~ In a (map fst ws) -> writes ws m a = m a.
  Proof.
    induction ws as [|[b v] ws IH]; intros m a H; [reflexivity|]. cbn [writes fold_left]. cbn [map In fst] in H.
    fold (writes ws (upd m (fst (b, v)) (snd (b, v)))). rewrite IH by tauto. unfold upd. cbn [fst snd].
    destruct (eqb_spec a b) as [->|]; [exfalso; apply H; now left|reflexivity].
  Qed.

  Lemma writes_in ws : NoDup (map fst ws) -> forall m a v, In (a, v) ws -> writes ws m a = v.
  Proof.
    induction ws as [|[b w] ws IH]; intros ND m a v H; [destruct H|]. cbn [map fst] in ND. inversion ND as [|? ? Hb ND']; subst.
    cbn [writes fold_left]. fold (writes ws (upd m (fst (b, w)) (snd (b, w)))). destruct H as [E|H].
    - injection E as -> ->. rewrite writes_out by assumption. unfold upd. cbn [fst snd].
      destruct (eqb_spec a a); congruence.
    - now apply IH.
  Qed.
End Writes.

(** Writing list elements: [None] when out of range. *)
Fixpoint set_at {A} (n : nat) (x : A) (l : list A) {struct l} : option (list A) :=
  match l, n with
  | [], _ => None
  | _ :: t, 0 => Some (x :: t)
  | y :: t, S m => option_map (cons y) (set_at m x t)
  end.

Lemma set_at_Some {A} (n : nat) (x : A) l : n < List.length l -> exists l', set_at n x l = Some l' /\
  List.length l' = List.length l /\ forall k, nth_error l' k = if Nat.eqb k n then Some x else nth_error l k.
Proof.
  revert n; induction l as [|y l IH]; intros n H; [simpl in H; lia|]. destruct n as [|n]; simpl.
  - exists (x :: l). split; [reflexivity|]. split; [reflexivity|]. intros [|k]; reflexivity.
  - destruct (IH n ltac:(simpl in H; lia)) as (l' & -> & Hl & Hk). exists (y :: l'). split; [reflexivity|]. split; [simpl; lia|].
    intros [|k]; [reflexivity|]. simpl. apply Hk.
Qed.

Lemma set_at_None {A} (n : nat) (x : A) l : List.length l <= n -> set_at n x l = None.
Proof.
  revert n; induction l as [|y l IH]; intros n H; [reflexivity|]. destruct n as [|n]; simpl in *; [lia|].
  now rewrite IH by lia.
Qed.

Lemma nth_error_ext_eq {A} (l : list A) : forall l', (forall i, nth_error l i = nth_error l' i) -> l = l'.
Proof.
  induction l as [|x l IH]; intros [|y l'] H; [reflexivity|now specialize (H 0)|now specialize (H 0)|].
  f_equal; [now injection (H 0)|]. apply IH. intro i. exact (H (S i)).
Qed.
