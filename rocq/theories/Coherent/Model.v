(** Transcription of the caching and normalisation of src/CoherentSum.cpp, src/Integrator.cpp, AmpGen/Integrator.h,
    AmpGen/FitFraction.h, and of the parameters of AmpGen/CompiledExpression.h. One value per block (no vector instructions). *)
From Verif.Common Require Import Prelude Writes.
From Verif.Store Require Import Model.
Local Open Scope nat_scope.

(** The operations on real numbers. *)
Record scalar (K : Type) := Scalar { k0 : K; kadd : K -> K -> K; kmul : K -> K -> K; kopp : K -> K; kdiv : K -> K -> K }.
Arguments k0 {K}. Arguments kadd {K}. Arguments kmul {K}. Arguments kopp {K}. Arguments kdiv {K}.

Section Complex.
  Variables (K : Type) (o : scalar K).
  Definition cplx := (K * K)%type.
  Definition c0 : cplx := (k0 o, k0 o).
  Definition cadd (a b : cplx) : cplx := (kadd o (fst a) (fst b), kadd o (snd a) (snd b)).
  Definition cmul (a b : cplx) : cplx :=
    (kadd o (kmul o (fst a) (fst b)) (kopp o (kmul o (snd a) (snd b))), kadd o (kmul o (fst a) (snd b)) (kmul o (snd a) (fst b))).
  Definition cconj (a : cplx) : cplx := (fst a, kopp o (snd a)).
  Definition cdivr (a : cplx) (x : K) : cplx := (kdiv o (fst a) x, kdiv o (snd a) x).
End Complex.
Arguments c0 {K} o. Arguments cadd {K} o. Arguments cmul {K} o. Arguments cconj {K} o. Arguments cdivr {K} o.

(** ** Parameters of a compiled expression *)
Section Externals.
  Variables (V : Type) (veqb : V -> V -> bool).
  (** AmpGen/CompiledExpression.h:130-136 *)
  Definition set_external (v : V) (address : nat) (st : list V * bool) : res (list V * bool) :=
    bind (of_opt (nth_error (fst st) address)) (fun old =>
      if veqb old v then Ok st else bind (of_opt (set_at address v (fst st))) (fun l => Ok (l, true))).
  (** src/CompiledExpressionBase.cpp:73-76, src/CacheTransfer.cpp:20-33, 54-57: every transfer writes the current value of
      its source to its address. *)
  Fixpoint transfer (ts : list (nat * V)) (st : list V * bool) : res (list V * bool) :=
    match ts with [] => Ok st | (a, v) :: ts' => bind (set_external v a st) (transfer ts') end.
End Externals.

(** ** The integrator *)
Section Integrator.
  Variables (K : Type) (o : scalar K) (Ev : Type) (wt : Ev -> K).
  Notation C := (cplx K).
  Notation queued := (nat * nat * nat)%type. (* position of the result, i, j *)
  (** AmpGen/Integrator.h:62-69 *)
  Record integrator := Integ { i_events : option (list Ev); i_weight : list K; i_cache : store C; i_norm : K; queue : list queued }.
  (** AmpGen/Integrator.h:32 *)
  Definition no_integrator : integrator := Integ None [] (construct C (c0 o) 1 0 0) (k0 o) [].
  (** AmpGen/Integrator.h:34-49; [wt] is weight / genPdf. *)
  Definition new_integrator (evts : list Ev) (fs : list (str * nat)) : integrator :=
    Integ (Some evts) (map wt evts) (allocate C (c0 o) 1 (List.length evts) fs (construct C (c0 o) 1 0 0))
      (fold_left (kadd o) (map wt evts) (k0 o)) [].
  (** src/Integrator.cpp:41-55: one queued integral. [data() + i*nBlocks()] with the layout SoA is field i. *)
  Fixpoint row_sum (ws : list K) (c : store C) (i j b n : nat) (acc : C) : res C :=
    match n with
    | 0 => Ok acc
    | S n' => bind (read C SoA c b i) (fun x => bind (read C SoA c b j) (fun y => bind (of_opt (nth_error ws b)) (fun w =>
                let p := cmul o x (cconj o y) in
                row_sum ws c i j (S b) n' (kadd o (fst acc) (kmul o w (fst p)), kadd o (snd acc) (kmul o w (snd p))))))
    end.
  Definition integral (g : integrator) (i j : nat) : res C :=
    bind (row_sum (i_weight g) (i_cache g) i j 0 (n_blocks (i_cache g)) (c0 o)) (fun s => Ok (cdivr o s (i_norm g))).
  (** src/Integrator.cpp:37-58: [norms] are the places pointed to. *)
  Fixpoint integrate_all (g : integrator) (q : list queued) (norms : list C) : res (list C) :=
    match q with
    | [] => Ok norms
    | (r, i, j) :: q' => bind (integral g i j) (fun v => bind (of_opt (set_at r v norms)) (integrate_all g q'))
    end.
  Definition with_queue (g : integrator) (q : list queued) : integrator := Integ (i_events g) (i_weight g) (i_cache g) (i_norm g) q.
  Definition integrate_block (g : integrator) (norms : list C) : res (integrator * list C) :=
    bind (integrate_all g (queue g) norms) (fun n => Ok (with_queue g [], n)).
  (** src/Integrator.cpp:62-66; writing behind the array of [batch] entries is undefined. *)
  Definition queue_integral (batch : nat) (g : integrator) (r i j : nat) (norms : list C) : res (integrator * list C) :=
    if batch <=? List.length (queue g) then UB else
    let g' := with_queue g (queue g ++ [(r, i, j)]) in
    if List.length (queue g') =? batch then integrate_block g' norms else Ok (g', norms).
  (** src/Integrator.cpp:68-72 *)
  Definition flush (g : integrator) (norms : list C) : res (integrator * list C) :=
    match queue g with [] => Ok (g, norms) | _ => integrate_block g norms end.
  Fixpoint queue_all (batch : nat) (rs : list queued) (g : integrator) (norms : list C) : res (integrator * list C) :=
    match rs with
    | [] => Ok (g, norms)
    | (r, i, j) :: rs' => bind (queue_integral batch g r i j norms) (fun x => queue_all batch rs' (fst x) (snd x))
    end.
End Integrator.
Arguments i_events {K Ev} i. Arguments i_weight {K Ev} i. Arguments i_cache {K Ev} i. Arguments i_norm {K Ev} i. Arguments queue {K Ev} i.

(** AmpGen/Integrator.h:62 *)
Definition unroll : nat := 8.

(** ** The sum of amplitudes *)
Section Sum.
  Variables (K : Type) (o : scalar K) (Ev : Type) (wt : Ev -> K) (V : Type) (veqb : V -> V -> bool) (P : Type).
  Notation C := (cplx K).
  (** What is fixed about a matrix element: its name (the decay descriptor), the value of its compiled expression for given parameter
      values, the transfers of the fit parameters [P] to them, its coupling. *)
  Record element := Element { name : str; amp : list V -> Ev -> C; sources : list (nat * (P -> V)); coupling : P -> C }.
  (** AmpGen/CompiledExpression.h (m_externals, m_hasExternalsChanged), AmpGen/MatrixElement.h: coefficient, workToDo. *)
  Record me := Me { elem : element; ext : list V; changed : bool; todo : bool; coef : C }.
  (** AmpGen/CoherentSum.h:107-120 *)
  Record csum := Csum { mes : list me; events : option (list Ev); cache : store C; integ : integrator K Ev;
                        norms : list C; m_norm : K; calls : nat }.
  Definition functors (l : list me) : list (str * nat) := map (fun m => (name (elem m), 1)) l.

  (** The state after construction (src/CoherentSum.cpp:44-71): the table of integrals is n x n, all zero; [c], [v]: the initial
      coefficients and normalisation. *)
  Definition start (l : list (element * list V)) (c : C) (v : K) : csum :=
    Csum (map (fun x => Me (fst x) (snd x) false false c) l) None (construct C (c0 o) 1 0 0) (no_integrator K o Ev)
      (repeat (c0 o) (List.length l * List.length l)) v 0.
  (** src/CoherentSum.cpp:217-225 *)
  Definition reset (all : bool) (s : csum) : csum :=
    if all then Csum (mes s) None (cache s) (no_integrator K o Ev) (norms s) (m_norm s) 0
    else Csum (mes s) (events s) (cache s) (integ s) (norms s) (m_norm s) 0.
  (** src/CoherentSum.cpp:227-235 *)
  Definition set_events (l : list Ev) (s : csum) : csum :=
    let s := reset false s in
    Csum (mes s) (Some l) (allocate C (c0 o) 1 (List.length l) (functors (mes s)) (cache s)) (integ s) (norms s) (m_norm s) (calls s).
  (** src/CoherentSum.cpp:238-243 *)
  Definition set_mc (l : list Ev) (s : csum) : csum :=
    let s := reset false s in
    Csum (mes s) (events s) (cache s) (new_integrator K o Ev wt l (functors (mes s))) (norms s) (m_norm s) (calls s).

  (** AmpGen/Store.h:149-206 for a list of events: the values of the element for each event, one field. *)
  Definition values (m : me) (l : list Ev) (e : nat) : list C := match nth_error l e with Some x => [amp (elem m) (ext m) x] | None => [] end.
  Definition update_store (al : layout) (m : me) (l : list Ev) (s : store C) : res (store C) :=
    update C al (seq 0 (List.length l)) (name (elem m)) (values m l) s.
  (** src/CoherentSum.cpp:267-271 and 81: the coefficient and the parameters of one element. (All coefficients are set
      before the loop of prepare; they do not depend on each other.) *)
  Definition transfer_me (p : P) (m : me) : res me :=
    bind (transfer V veqb (map (fun t => (fst t, snd t p)) (sources (elem m))) (ext m, changed m)) (fun r =>
      Ok (Me (elem m) (fst r) (snd r) (todo m) (coupling (elem m) p))).
  (** src/CoherentSum.cpp:76-87 *)
  Fixpoint prepare_loop (p : P) (calls : nat) (ev : option (list Ev)) (l : list me) (c : store C) (g : integrator K Ev)
    : res (list me * store C * integrator K Ev) :=
    match l with
    | [] => Ok ([], c, g)
    | m :: l' =>
        bind (transfer_me p m) (fun m =>
        if negb (calls =? 0) && negb (changed m) then
          bind (prepare_loop p calls ev l' c g) (fun r => let '(l', c, g) := r in Ok (m :: l', c, g))
        else
          bind (match ev with Some evts => update_store AoS m evts c | None => Ok c end) (fun c =>
          bind (match i_events g with Some evts => bind (update_store SoA m evts (i_cache g)) (fun ic => Ok (Integ K Ev (i_events g) (i_weight g) ic (i_norm g) (queue g)))
                | None => Ok g end) (fun g =>
          bind (prepare_loop p calls ev l' c g) (fun r => let '(l', c, g) := r in
            Ok (Me (elem m) (ext m) false true (coef m) :: l', c, g)))))
    end.
  (** src/CoherentSum.cpp:110-119 with Bilinears::get of AmpGen/Integrator.h:87-91 *)
  Definition requests (todos : list bool) : list (nat * nat * nat) :=
    let n := List.length todos in
    flat_map (fun i => flat_map (fun j =>
      if nth i todos false || nth j todos false then [(i * n + j, i, j)] else []) (seq i (n - i))) (seq 0 n).
  (** src/CoherentSum.cpp:250-265, src/Integrator.cpp:13 *)
  Definition norm_at (nm : list C) (n x y : nat) : res C := of_opt (nth_error nm (x * n + y)).
  Fixpoint sum_over (l : list nat) (f : nat -> res C) (acc : C) : res C :=
    match l with [] => Ok acc | x :: l' => bind (f x) (fun v => sum_over l' f (cadd o acc v)) end.
  Definition norm_term (nm : list C) (g : list C) (i j : nat) : res C :=
    let n := List.length g in
    bind (of_opt (nth_error g i)) (fun gi => bind (of_opt (nth_error g j)) (fun gj =>
    bind (if j <? i then bind (norm_at nm n j i) (fun v => Ok (cconj o v)) else norm_at nm n i j) (fun v =>
      Ok (cmul o (cmul o gi (cconj o gj)) v)))).
  (** The double loop accumulates in one variable: the inner sum starts from the outer one. *)
  Fixpoint double_sum (is js : list nat) (f : nat -> nat -> res C) (acc : C) : res C :=
    match is with [] => Ok acc | i :: is' => bind (sum_over js (f i) acc) (double_sum is' js f) end.
  Definition norm (nm : list C) (g : list C) : res K :=
    bind (double_sum (seq 0 (List.length g)) (seq 0 (List.length g)) (norm_term nm g) (c0 o)) (fun v => Ok (fst v)).
  (** src/CoherentSum.cpp:108-123 *)
  Definition update_norms (l : list me) (g : integrator K Ev) (nm : list C) : res (integrator K Ev * list C * K) :=
    bind (if existsb (fun m => todo m) l then queue_all K o Ev unroll (requests (map todo l)) g nm else Ok (g, nm)) (fun x =>
    bind (flush K o Ev (fst x) (snd x)) (fun y =>
    bind (norm (snd y) (map coef l)) (fun v => Ok (fst y, snd y, v)))).
  (** src/CoherentSum.cpp:72-106; every element is linked. *)
  Definition prepare (p : P) (s : csum) : res csum :=
    bind (prepare_loop p (calls s) (events s) (mes s) (cache s) (integ s)) (fun r => let '(l, c, g) := r in
    bind (match i_events g with Some _ => update_norms l g (norms s) | None => Ok (g, norms s, m_norm s) end) (fun x => let '(g, nm, v) := x in
    Ok (Csum (map (fun m => Me (elem m) (ext m) (changed m) false (coef m)) l) (events s) c g nm v (S (calls s))))).

  (** src/CoherentSum.cpp:289-300: the value of an event from the cache. *)
  Definition get_val (s : csum) (e : nat) : res C :=
    sum_over (seq 0 (List.length (mes s))) (fun i => bind (of_opt (nth_error (mes s) i)) (fun m => bind (read C AoS (cache s) e i) (fun a => Ok (cmul o (coef m) a)))) (c0 o).

  (** *** Fit fractions, AmpGen/FitFraction.h:77-94 *)
  Definition ff_norm (nm g : list C) (normset : list nat) : res K :=
    bind (double_sum normset normset (norm_term nm g) (c0 o)) (fun v => Ok (fst v)).
  Definition ff_val (nm g : list C) (normset is js : list nat) : res K :=
    bind (double_sum is js (norm_term nm g) (c0 o)) (fun v => bind (ff_norm nm g normset) (fun n => Ok (kdiv o (fst v) n))).
End Sum.
Arguments name {K Ev V P} e. Arguments amp {K Ev V P} e. Arguments sources {K Ev V P} e. Arguments coupling {K Ev V P} e.
Arguments elem {K Ev V P} m. Arguments ext {K Ev V P} m. Arguments changed {K Ev V P} m. Arguments todo {K Ev V P} m. Arguments coef {K Ev V P} m.
Arguments mes {K Ev V P} c. Arguments events {K Ev V P} c. Arguments cache {K Ev V P} c. Arguments integ {K Ev V P} c. Arguments norms {K Ev V P} c.
Arguments m_norm {K Ev V P} c. Arguments calls {K Ev V P} c.
