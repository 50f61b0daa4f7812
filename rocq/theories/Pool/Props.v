From Coq Require Import Permutation.
From Verif.Common Require Import Prelude.
From Verif.Pool Require Import Model Proofs.
Local Open Scope nat_scope.

(** ** C36 *)
(** The tasks being executed. *)
Definition in_progress {T} (p : pool T) : list T := flat_map (fun w => match w with Running t => [t] | _ => [] end) (workers p).

(** At every moment of every execution with at least one worker: tasks have been started in the order enqueued, each once; what was started is
    finished or in progress; and once the shutdown has returned exactly the tasks enqueued before it have been finished. *)
Theorem C36_once_partial : forall (T : Type) (n : nat) (progs : list (list T)) (N k : nat) (p : pool T),
  0 < n -> exec N k (init n progs) p ->
  accepted p = started p ++ tasks p /\
  Permutation (started p) (finished p ++ in_progress p) /\
  (own p = Returned -> started p = closed p /\ Permutation (finished p) (closed p) /\ in_progress p = []).
Proof.
  intros T n progs N k p Hn H. destruct (exec_inv T n N k _ p Hn (init_inv T n progs Hn) H) as (A & R & L & O & _).
  split; [exact A|]. split; [exact R|]. intro Ho. rewrite Ho in O. destruct O as [O1 O2]. split; [exact O2|].
  assert (Rn : in_progress p = []) by (apply (running_exited T); exact O1). split; [|exact Rn].
  fold (running T (workers p)) in R. change (running T (workers p)) with (in_progress p) in R. rewrite Rn, app_nil_r in R. rewrite <- O2. now apply Permutation_sym.
Qed.
Print Assumptions C36_once_partial.

(** No deadlock and no lost wake-up: a shutdown that has begun, and a pool with tasks in its queue that is not shut down, always have
    something to do; and an execution with k spurious wake-ups has at most M + k other steps, M a number fixed at the start. *)
Theorem C36_live_partial : forall (T : Type) (n : nat) (progs : list (list T)) (N k : nat) (p : pool T),
  0 < n -> exec N k (init n progs) p ->
  (own p = NotifyAll \/ (exists j, own p = Join j) -> exists q, step false p q) /\
  (own p = Idle -> tasks p <> [] -> exists q, step false p q) /\
  N <= 3 * n + 6 + 5 * List.length (List.concat progs) + k.
Proof.
  intros T n progs N k p Hn H. pose proof (exec_inv T n N k _ p Hn (init_inv T n progs Hn) H) as Iv. split; [|split].
  - intro Ho. now apply (shutdown_progress T n).
  - intros Ho Ht. apply (no_lost_wakeup T n p Iv); [rewrite Ho; exact I|exact Ht].
  - pose proof (exec_length T n N k _ p Hn (init_inv T n progs Hn) H) as M.
    assert (E : measure T n (init n progs) = 3 * n + 6 + 5 * List.length (List.concat progs)); [|lia].
    unfold measure, init. cbn [tasks workers callers own List.length w_owner].
    assert (E1 : sum (w_worker T) (repeat Ready n) = n) by (clear; induction n as [|n IH]; [reflexivity|]; cbn [repeat sum fold_right w_worker]; unfold sum in IH; now rewrite IH).
    assert (E2 : sum (w_caller T) (map Enqueue progs) = 5 * List.length (List.concat progs)).
    { clear. induction progs as [|l ps IH]; [reflexivity|]. cbn [map sum fold_right w_caller List.concat]. unfold sum in IH. rewrite IH, app_length. lia. }
    lia.
Qed.
Print Assumptions C36_live_partial.

(** One worker, two callers: a run in which the worker blocks, is woken once spuriously and once by a caller, and in which the second caller
    comes too late with its second task. *)
Ltac go H t := eapply Step in H; [|t]; cbn in H.
Example C36_example : exists N k (p : pool nat), exec N k (init 1 [[1]; [2; 3]]) p /\ own p = Returned /\ finished p = [2; 1] /\ closed p = [2; 1] /\
  callers p = [Enqueue []; Thrown [3]].
Proof.
  pose proof (Done nat (init 1 [[1]; [2; 3]])) as H. cbn in H.
  go H ltac:(apply (Turn nat _ [] []); reflexivity).
  eapply Wake in H; [|apply (Spurious nat _ [] []); reflexivity]. cbn in H.
  go H ltac:(apply (Turn nat _ [] []); reflexivity).
  go H ltac:(apply (Put nat _ [Enqueue [1]] [] 2 [3]); reflexivity).
  go H ltac:(apply (Put nat _ [] [Notify [3]] 1 []); reflexivity).
  go H ltac:(apply (NotifyOne nat _ [] [Notify [3]] [] [] []); reflexivity).
  go H ltac:(apply (Turn nat _ [] []); reflexivity).
  go H ltac:(apply (NotifyNone nat _ [Enqueue []] [] [3]); reflexivity).
  go H ltac:(apply (Stop nat); reflexivity).
  go H ltac:(apply (Refuse nat _ [Enqueue []] [] 3 []); reflexivity).
  go H ltac:(apply (WakeAll nat); reflexivity).
  go H ltac:(apply (Finish nat _ [] [] 2); reflexivity).
  go H ltac:(apply (Turn nat _ [] []); reflexivity).
  go H ltac:(apply (Finish nat _ [] [] 1); reflexivity).
  go H ltac:(apply (Turn nat _ [] []); reflexivity).
  go H ltac:(apply (Joined nat _ 0); reflexivity).
  go H ltac:(apply (Return nat _ 1); reflexivity).
  eexists _, _, _. split; [exact H|]. repeat split.
Qed.

(** A pool built with no worker (for instance with hardware_concurrency(), which may return 0) accepts tasks, and its shutdown returns without
    having run them. *)
Theorem C36_no_worker_refuted : exists (N k : nat) (p : pool nat), exec N k (init 0 [[1]]) p /\ own p = Returned /\ closed p = [1] /\ finished p = [].
Proof.
  pose proof (Done nat (init 0 [[1]])) as H. cbn in H.
  go H ltac:(apply (Put nat _ [] [] 1 []); reflexivity).
  go H ltac:(apply (NotifyNone nat _ [] [] []); reflexivity).
  go H ltac:(apply (Stop nat); reflexivity).
  go H ltac:(apply (WakeAll nat); reflexivity).
  go H ltac:(apply (Return nat _ 0); reflexivity).
  eexists _, _, _. split; [exact H|]. repeat split.
Qed.
Print Assumptions C36_no_worker_refuted.

(** After waitForStoppedThreads() has returned, enqueue accepts a task that no continuation of the execution runs, and the destructor
    joins the same threads a second time, which throws. *)
Theorem C36_after_wait_refuted : exists (N k : nat) (p : pool nat), exec N k (init 1 [[1]]) p /\ own p = Returned /\ accepted p = [1] /\
  (forall N' k' q, exec N' k' p q -> ~ In 1 (started q)) /\ exists q, step false p q /\ own q = JoinThrown.
Proof.
  pose proof (Done nat (init 1 [[1]])) as H. cbn in H.
  go H ltac:(apply (Stop nat); reflexivity).
  go H ltac:(apply (WakeAll nat); reflexivity).
  go H ltac:(apply (Turn nat _ [] []); reflexivity).
  go H ltac:(apply (Joined nat _ 0); reflexivity).
  go H ltac:(apply (Return nat _ 1); reflexivity).
  go H ltac:(apply (Put nat _ [] [] 1 []); reflexivity).
  eexists _, _, _. split; [exact H|]. split; [reflexivity|]. split; [reflexivity|]. split.
  - intros N' k' q E. match type of E with exec _ _ ?p _ => set (p0 := p) in * end.
    assert (G : workers q = [Exited] /\ started q = []); [|destruct G as [_ ->]; intros []].
    assert (Z : workers p0 = [Exited] /\ started p0 = []) by (split; reflexivity). clearbody p0. clear H.
    assert (St : forall b (x y : pool nat), step b x y -> workers x = [Exited] /\ started x = [] -> workers y = [Exited] /\ started y = []).
    { clear. assert (No : forall (a b : list (worker nat)) w, [Exited] = a ++ w :: b -> w = Exited).
      { intros a b w Hx. destruct a as [|y a]; cbn in Hx; [congruence|]. destruct a; discriminate. }
      intros b x y S [Hw Hs]. destruct S as [p a b Ew|p a b t Ew|p a b Ew|p a b t l Hc E|p a b t l Hc E|p a b l c d Hc Ew|p a b l Hc E|p Ho|p Ho|p k Ho Hk|p k Ho Hk|p Ho Hk];
        cbn [workers started]; auto; try (rewrite Hw in Ew; apply No in Ew; discriminate). rewrite Hw. auto. }
    induction E as [|N' k' p q r E IH S|N' k' p q r E IH S]; [exact Z| |]; apply (St _ _ _ S); auto.
  - eexists. split; [apply (Again nat); [reflexivity|discriminate]|reflexivity].
Qed.
Print Assumptions C36_after_wait_refuted.

(** With ThreadPool::Enable = false the task is run, but the future that enqueue returns never gets its value: get() throws. *)
Theorem C36_disabled_refuted : exists (R : Type) (f : unit -> R), fst (enqueue false f) = fst (enqueue true f) /\ snd (enqueue true f) = Ok (f tt) /\ snd (enqueue false f) = Throw.
Proof. exists nat, (fun _ => 1). repeat split. Qed.
Print Assumptions C36_disabled_refuted.
