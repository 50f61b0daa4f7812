(** Model of src/EventListSIMD.cpp, AmpGen/EventListSIMD.h, AmpGen/simd/iterator.h and of gather and sum_elements of
    AmpGen/simd/utils.h: events stored in blocks of [w]. Real numbers stand for double; a block is a list of [w] of them, on which
    the operations of real_v act lane by lane. The storage is that of Verif.Store. Of reading a file, the entries are given. *)
From Verif.Common Require Import Prelude Writes.
From Coq Require Import Reals.
From Verif.Store Require Import Model.
Local Open Scope R_scope.

(** AmpGen/Event.h:18-66; a new event has no values, weight 1 and density 1. *)
Record event := Event { values : list R; weight : R; genPdf : R; index : nat }.
Definition blank : event := Event [] 1 1 0.
(** AmpGen/Event.h:39: operator[] *)
Definition field (j : nat) (e : event) : res R := of_opt (nth_error (values e) j).

Fixpoint each {A B} (f : A -> res B) (l : list A) : res (list B) :=
  match l with [] => Ok [] | x :: l' => bind (f x) (fun y => bind (each f l') (fun r => Ok (y :: r))) end.

Section Lists.
  Variable w : nat.
  (** AmpGen/simd/utils.h:65-74: with the default 0 it is the last element that is repeated. *)
  Definition gather {A} (container : list A) (functor : A -> res R) (offset : nat) (df : R) : res (list R) :=
    each (fun k => match nth_error container (offset + k) with
                   | Some x => functor x
                   | None => if Req_EM_T df 0 then bind (of_opt (nth_error container (List.length container - 1))) functor else Ok df
                   end) (seq 0 w).

  (** AmpGen/EventListSIMD.h:36-39 *)
  Record simd := Simd { data : store (list R); weights : list (list R); gens : list (list R) }.
  Definition splat (x : R) : list R := repeat x w.
  (** std::vector::resize with a value *)
  Definition vresize {A} (l : list A) (n : nat) (v : A) : list A := firstn n l ++ repeat v (n - List.length l).
  (** AmpGen/EventListSIMD.h:79-84, AmpGen/Store.h:21-25, 65: aligned_size() is that of real_v; [nf] is eventSize() of the type. *)
  Definition resize (nf n : nat) (s : simd) : simd :=
    Simd (construct (list R) (splat 0) w n nf) (vresize (weights s) (w * blocks w n) (splat 1)) (vresize (gens s) (w * blocks w n) (splat 1)).
  (** src/EventListSIMD.cpp:38-40 *)
  Definition empty_list (nf : nat) : simd := Simd (construct (list R) (splat 0) w 0 nf) [] [].

  (** The assignments m_data(block, j) = ..., m_weights[block] = ..., m_genPDF[block] = ... *)
  Fixpoint put_fields (b : nat) (js : list nat) (f : nat -> res (list R)) (d : store (list R)) : res (store (list R)) :=
    match js with [] => Ok d | j :: js' => bind (f j) (fun v => bind (write (list R) AoS d b j v) (put_fields b js' f)) end.
  Definition put_block (s : simd) (b : nat) (f : nat -> res (list R)) (fw fg : res (list R)) : res simd :=
    bind (put_fields b (seq 0 (n_fields (data s))) f (data s)) (fun d =>
    bind fw (fun vw => bind (of_opt (set_at b vw (weights s))) (fun ws =>
    bind fg (fun vg => bind (of_opt (set_at b vg (gens s))) (fun gs => Ok (Simd d ws gs)))))).
  (** src/EventListSIMD.cpp:141-151 *)
  Fixpoint from_blocks (l : list event) (bs : list nat) (s : simd) : res simd :=
    match bs with
    | [] => Ok s
    | b :: bs' => bind (put_block s b (fun j => gather l (field j) (b * w) 0) (gather l (fun e => Ok (weight e)) (b * w) 0) (gather l (fun e => Ok (genPdf e)) (b * w) 1))
                       (from_blocks l bs')
    end.
  Definition from_list (nf : nat) (l : list event) : res simd :=
    let s := resize nf (List.length l) (empty_list nf) in from_blocks l (seq 0 (n_blocks (data s))) s.
  (** src/EventListSIMD.cpp:247-253 *)
  Definition gather_array (buffer : list event) (pos : nat) (s : simd) : res simd :=
    put_block s pos (fun j => gather buffer (field j) 0 0) (gather buffer (fun e => Ok (weight e)) 0 0) (gather buffer (fun e => Ok (genPdf e)) 0 0).

  (** src/EventListSIMD.cpp:119-135: the entries are the values of [temp] after each getEntry. The array of events is kept from
      block to block. *)
  Fixpoint fill_buffer (entries : list event) (n base : nat) (ks : list nat) (buffer : list event) : res (list event) :=
    match ks with
    | [] => Ok buffer
    | k :: ks' =>
        bind (if (base + k <? n)%nat then bind (of_opt (nth_error entries (base + k))) (fun e => of_opt (set_at k e buffer))
              else bind (of_opt (nth_error buffer k)) (fun e => of_opt (set_at k (Event (values e) 0 (genPdf e) (index e)) buffer)))
             (fill_buffer entries n base ks')
    end.
  Fixpoint load_blocks (entries : list event) (n : nat) (bs : list nat) (buffer : list event) (s : simd) : res simd :=
    match bs with
    | [] => Ok s
    | b :: bs' => bind (fill_buffer entries n (b * w) (seq 0 w) buffer) (fun buf => bind (gather_array buf b s) (load_blocks entries n bs' buf))
    end.
  Definition load (nf : nat) (entries : list event) (s : simd) : res simd :=
    let s := resize nf (List.length entries) s in load_blocks entries (n_entries (data s)) (seq 0 (n_blocks (data s))) (repeat blank w) s.
  (** AmpGen/EventListSIMD.h:52-55: the constructor with several files. *)
  Fixpoint load_files (nf : nat) (files : list (list event)) (s : simd) : res simd :=
    match files with [] => Ok s | f :: fs => bind (load nf f s) (load_files nf fs) end.

  (** src/EventListSIMD.cpp:215-226 *)
  Definition lane (k : nat) (b : list R) : res R := of_opt (nth_error b k).
  Definition at_ (s : simd) (pos : nat) : res event :=
    let p := (pos / w)%nat in let q := (pos mod w)%nat in
    bind (each (fun i => bind (read (list R) AoS (data s) p i) (lane q)) (seq 0 (n_fields (data s)))) (fun v =>
    bind (bind (of_opt (nth_error (weights s) p)) (lane q)) (fun x => bind (bind (of_opt (nth_error (gens s) p)) (lane q)) (fun g => Ok (Event v x g pos)))).
  (** src/EventListSIMD.cpp:228-245 *)
  Definition scatter (s : simd) (pos : nat) : res (list event) :=
    let p := (pos / w)%nat in
    bind (of_opt (nth_error (weights s) p)) (fun vw => bind (of_opt (nth_error (gens s) p)) (fun vg =>
    bind (each (fun f => read (list R) AoS (data s) p f) (seq 0 (n_fields (data s)))) (fun vs =>
    each (fun k => bind (each (lane k) vs) (fun v => bind (lane k vw) (fun x => bind (lane k vg) (fun g => Ok (Event v x g (k + pos)))))) (seq 0 w)))).

  (** ** Loops over the events *)
  (** AmpGen/simd/iterator.h:11-28, AmpGen/EventListSIMD.h:88-91: the buffer is read again when the position reaches the next block. *)
  Fixpoint walk (s : simd) (steps pos : nat) (buffer : list event) : res (list event) :=
    match steps with
    | 0%nat => Ok []
    | S m => bind (of_opt (nth_error buffer (pos mod w))) (fun e =>
             bind (if (S pos mod w =? 0)%nat then scatter s (S pos) else Ok buffer) (fun buffer' =>
             bind (walk s m (S pos) buffer') (fun r => Ok (e :: r))))
    end.
  Definition iterate (s : simd) : res (list event) :=
    bind (if (0 <? w * n_blocks (data s))%nat then scatter s 0 else Ok (repeat blank w)) (walk s (n_entries (data s)) 0).
  (** The same with modification, AmpGen/EventListSIMD.h:137-141, AmpGen/simd/iterator.h:19-37: the buffer is written when its block is left, the last one by the
      destructor. *)
  Fixpoint walk_modify (f : event -> event) (steps pos : nat) (buffer : list event) (s : simd) : res simd :=
    match steps with
    | 0%nat => if (pos mod w =? 0)%nat then Ok s else gather_array buffer (pos / w) s
    | S m => bind (of_opt (nth_error buffer (pos mod w))) (fun e => bind (of_opt (set_at (pos mod w) (f e) buffer)) (fun buf =>
             if (S pos mod w =? 0)%nat then bind (gather_array buf (pos / w) s) (fun s' => bind (scatter s' (S pos)) (fun buf' => walk_modify f m (S pos) buf' s'))
             else walk_modify f m (S pos) buf s))
    end.
  Definition transform (f : event -> event) (s : simd) : res simd :=
    bind (if (0 <? w * n_blocks (data s))%nat then scatter s 0 else Ok (repeat blank w)) (fun buffer => walk_modify f (n_entries (data s)) 0 buffer s).

  (** ** Sums over the events *)
  Definition vzip (f : R -> R -> R) (a b : list R) : list R := map (fun p => f (fst p) (snd p)) (combine a b).
  (** AmpGen/simd/utils.h:79-89 *)
  Definition sum_elements (a : list R) : R := fold_left Rplus a 0.
  (** A function of the values of the event, lane by lane. *)
  Definition apply (s : simd) (F : list R -> R) (b : nat) : res (list R) :=
    bind (each (fun f => read (list R) AoS (data s) b f) (seq 0 (n_fields (data s)))) (fun vs => each (fun k => bind (each (lane k) vs) (fun v => Ok (F v))) (seq 0 w)).
  (** AmpGen/SumPDF.h:59-66, 79-87 *)
  Definition getVal (s : simd) (pdf : list R -> R) : res R :=
    bind (each (fun b => bind (of_opt (nth_error (weights s) b)) (fun x => bind (apply s pdf b) (fun p => Ok (vzip Rmult x (map ln p))))) (seq 0 (n_blocks (data s)))) (fun tmp =>
    Ok (-2 * sum_elements (fold_left (vzip Rplus) tmp (splat 0)))).
  (** AmpGen/Integrator.h:34-49, src/Integrator.cpp:37-58: the average of F, with the weights over the density of generation. *)
  Definition mc_weights (s : simd) : res (list (list R)) :=
    each (fun b => bind (of_opt (nth_error (weights s) b)) (fun x => bind (of_opt (nth_error (gens s) b)) (fun g => Ok (vzip Rdiv x g)))) (seq 0 (n_blocks (data s))).
  Definition average (s : simd) (F : list R -> R) : res R :=
    bind (mc_weights s) (fun ws => let norm := sum_elements (fold_left (vzip Rplus) ws (splat 0)) in
    bind (each (fun b => bind (of_opt (nth_error ws b)) (fun x => bind (apply s F b) (fun c => Ok (vzip Rmult x c)))) (seq 0 (n_blocks (data s)))) (fun tmp =>
    Ok (sum_elements (fold_left (vzip Rplus) tmp (splat 0)) / norm))).
End Lists.
