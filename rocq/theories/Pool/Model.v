(** Transcription of src/ThreadPool.cpp, AmpGen/ThreadPool.h as a transition system: workers, callers of enqueue, and the owner that shuts
    the pool down. What is done with the mutex held is one step. Tasks are opaque: a task returns (an exception goes to its future) and does
    not use the pool. *)
From Verif.Common Require Import Prelude.
Local Open Scope nat_scope.

Section Pool.
  Variable T : Type.

  (** A worker: before the lock of line 16, blocked in wait, executing a task (line 22), returned (line 18). *)
  Inductive worker := Ready | Blocked | Running (t : T) | Exited.
  (** A caller with tasks still to enqueue: before the lock of AmpGen/ThreadPool.h:75, before notify_one (line 79), or left by the exception of line 76. *)
  Inductive caller := Enqueue (l : list T) | Notify (l : list T) | Thrown (l : list T).
  (** The owner (waitForStoppedThreads, src/ThreadPool.cpp:32-41): not called yet, before notify_all, joining worker k, returned; left by the
      exception of joining a thread twice. *)
  Inductive owner := Idle | NotifyAll | Join (k : nat) | Returned | JoinThrown.

  (** [started], [finished]: the tasks in the order in which workers started and finished them; [accepted]: in the order in which enqueue
      put them into the queue; [closed]: those accepted when the shutdown began. None of the four is in the code. *)
  Record pool := Pool { tasks : list T; stop : bool; workers : list worker; callers : list caller; own : owner;
                        started : list T; finished : list T; accepted : list T; closed : list T }.

  (** src/ThreadPool.cpp:9, m_stop={false} *)
  Definition init (n : nat) (progs : list (list T)) : pool := Pool [] false (repeat Ready n) (map Enqueue progs) Idle [] [] [] [].

  (** src/ThreadPool.cpp:16-21: one turn of a worker with the lock held. [wait] returns at once when its predicate holds. *)
  Definition turn (p : pool) : worker * list T * list T :=
    if negb (stop p || match tasks p with [] => false | _ => true end) then (Blocked, tasks p, started p)
    else match tasks p with
         | [] => (Exited, [], started p)
         | t :: r => (Running t, r, started p ++ [t])
         end.
  Definition unblock (w : worker) : worker := match w with Blocked => Ready | _ => w end.
  Definition blocked (w : worker) : bool := match w with Blocked => true | _ => false end.

  (** The flag marks a spurious wake-up of a condition variable. *)
  Inductive step : bool -> pool -> pool -> Prop :=
  | Turn p a b : workers p = a ++ Ready :: b -> step false p
      (let '(w, ts, st) := turn p in Pool ts (stop p) (a ++ w :: b) (callers p) (own p) st (finished p) (accepted p) (closed p))
  | Finish p a b t : workers p = a ++ Running t :: b -> step false p
      (Pool (tasks p) (stop p) (a ++ Ready :: b) (callers p) (own p) (started p) (finished p ++ [t]) (accepted p) (closed p))
  | Spurious p a b : workers p = a ++ Blocked :: b -> step true p
      (Pool (tasks p) (stop p) (a ++ Ready :: b) (callers p) (own p) (started p) (finished p) (accepted p) (closed p))
  (** AmpGen/ThreadPool.h:75-77 *)
  | Put p a b t l : callers p = a ++ Enqueue (t :: l) :: b -> stop p = false -> step false p
      (Pool (tasks p ++ [t]) (stop p) (workers p) (a ++ Notify l :: b) (own p) (started p) (finished p) (accepted p ++ [t]) (closed p))
  | Refuse p a b t l : callers p = a ++ Enqueue (t :: l) :: b -> stop p = true -> step false p
      (Pool (tasks p) (stop p) (workers p) (a ++ Thrown (t :: l) :: b) (own p) (started p) (finished p) (accepted p) (closed p))
  (** AmpGen/ThreadPool.h:79: wakes one blocked worker if there is one. *)
  | NotifyOne p a b l c d : callers p = a ++ Notify l :: b -> workers p = c ++ Blocked :: d -> step false p
      (Pool (tasks p) (stop p) (c ++ Ready :: d) (a ++ Enqueue l :: b) (own p) (started p) (finished p) (accepted p) (closed p))
  | NotifyNone p a b l : callers p = a ++ Notify l :: b -> existsb blocked (workers p) = false -> step false p
      (Pool (tasks p) (stop p) (workers p) (a ++ Enqueue l :: b) (own p) (started p) (finished p) (accepted p) (closed p))
  (** src/ThreadPool.cpp:34-37 *)
  | Stop p : own p = Idle -> step false p
      (Pool (tasks p) true (workers p) (callers p) NotifyAll (started p) (finished p) (accepted p) (accepted p))
  (** src/ThreadPool.cpp:38 *)
  | WakeAll p : own p = NotifyAll -> step false p
      (Pool (tasks p) (stop p) (map unblock (workers p)) (callers p) (Join 0) (started p) (finished p) (accepted p) (closed p))
  (** src/ThreadPool.cpp:39 *)
  | Joined p k : own p = Join k -> nth_error (workers p) k = Some Exited -> step false p
      (Pool (tasks p) (stop p) (workers p) (callers p) (Join (S k)) (started p) (finished p) (accepted p) (closed p))
  (** src/ThreadPool.cpp:40 *)
  | Return p k : own p = Join k -> k = List.length (workers p) -> step false p
      (Pool (tasks p) false (workers p) (callers p) Returned (started p) (finished p) (accepted p) (closed p))
  (** A second call (src/ThreadPool.cpp:27-30 is one): no worker is blocked; the threads are still in m_workers and join of a joined thread
      throws. *)
  | Again p : own p = Returned -> workers p <> [] -> step false p
      (Pool (tasks p) true (workers p) (callers p) JoinThrown (started p) (finished p) (accepted p) (closed p)).

  (** Executions, with the number of steps that are not spurious and the number of those that are. *)
  Inductive exec : nat -> nat -> pool -> pool -> Prop :=
  | Done p : exec 0 0 p p
  | Step n k p q r : exec n k p q -> step false q r -> exec (S n) k p r
  | Wake n k p q r : exec n k p q -> step true q r -> exec n (S k) p r.
End Pool.
Arguments Ready {T}. Arguments Blocked {T}. Arguments Running {T}. Arguments Exited {T}. Arguments Enqueue {T}. Arguments Notify {T}. Arguments Thrown {T}.
Arguments Pool {T}. Arguments tasks {T} p. Arguments stop {T} p. Arguments workers {T} p. Arguments callers {T} p. Arguments own {T} p.
Arguments started {T} p. Arguments finished {T} p. Arguments accepted {T} p. Arguments closed {T} p. Arguments init {T}. Arguments step {T}. Arguments exec {T}.

(** *** The future returned by enqueue, AmpGen/ThreadPool.h:66-82 *)
(** A packaged task sets its future when it is invoked; when it is destroyed without that, get() throws broken_promise. *)
Record packaged (R : Type) := Packaged { invoked : option R }.
Arguments Packaged {R}. Arguments invoked {R}.
Definition future_get {R} (t : packaged R) : res R := match invoked t with Some r => Ok r | None => Throw end.
(** The calls of [f], and what the future gives once the task is gone: through the queue the packaged task is invoked; with the pool disabled
    (line 71) [f] is called itself. *)
Definition enqueue {R} (enabled : bool) (f : unit -> R) : list R * res R :=
  let task := Packaged None in
  if enabled then let r := f tt in ([r], future_get (Packaged (Some r))) else ([f tt], future_get task).
