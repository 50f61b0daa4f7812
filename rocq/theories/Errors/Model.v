(** Linear error propagation: src/ErrorPropagator.cpp:51-107, 109-240, AmpGen/ErrorPropagator.h:73-83. Real numbers. *)
From Coq Require Import Reals.
From Verif.Common Require Export Prelude.

(** A double: a number, or NaN. Division by zero only occurs here with a zero above it. *)
Definition num := option R.
Definition lift2 (f : R -> R -> R) (a b : num) : num := match a, b with Some x, Some y => Some (f x y) | _, _ => None end.
Definition add_ := lift2 Rplus.
Definition sub_ := lift2 Rminus.
Definition mul_ := lift2 Rmult.
Definition div_ (a b : num) : num := match a, b with Some x, Some y => if Req_EM_T y 0 then None else Some (x / y)%R | _, _ => None end.
Definition sqrt_ (a : num) : num := match a with Some x => if Rlt_dec x 0 then None else Some (sqrt x) | None => None end.
Fixpoint sum_ (n : nat) (f : nat -> num) : num := match n with 0 => Some 0%R | S m => add_ (sum_ m f) (f m) end.

(** The parameter objects: their current values, by address; a parameter has a name and is at an address. *)
Definition store := list num.
Record parameter := Param { pname : str; addr : nat }.
Fixpoint put (s : store) (a : nat) (v : num) : store := match s, a with [], _ => [] | _ :: r, 0 => v :: r | x :: r, S b => x :: put r b v end.
(** TMatrixD, square. *)
Record matrix := Matrix { rows : nat; entry : nat -> nat -> R }.
(** TMatrixD::ResizeTo keeps what remains, and fills with zeros. *)
Definition resize (m : matrix) (n : nat) : matrix :=
  if Nat.eqb n (rows m) then m else Matrix n (fun i j => if Nat.ltb i (rows m) && Nat.ltb j (rows m) then entry m i j else 0%R).
Definition assign (e : nat -> nat -> R) (i j : nat) (v : R) : nat -> nat -> R := fun i' j' => if Nat.eqb i' i && Nat.eqb j' j then v else e i' j'.
Definition square (n : nat) : list (nat * nat) := flat_map (fun x => map (fun y => (x, y)) (seq 0 n)) (seq 0 n).

Record propagator := Prop_ { cov : matrix; params : list parameter }.
Definition size (p : propagator) : nat := List.length (params p).
(** src/ErrorPropagator.cpp:58-68; the errors, and which parameters are free, are given. *)
Definition diagonal (ps : list (parameter * bool * R)) : propagator :=
  let l := filter (fun q => let '(_, free, err) := q in free && negb (if Req_EM_T err 0 then true else false)) ps in
  Prop_ (Matrix (List.length l) (fun i j => if Nat.eqb i j then (let e := snd (nth i l (Param [] 0, false, 0%R)) in e * e)%R else 0%R)) (map (fun q => fst (fst q)) l).

(** src/ErrorPropagator.cpp:231-238: the last position of a name. *)
Fixpoint posMap_from (k : nat) (l : list parameter) (x : str) : option nat :=
  match l with
  | [] => None
  | q :: r => match posMap_from (S k) r x with Some i => Some i | None => if str_eqb (pname q) x then Some k else None end
  end.
Definition posMap (p : propagator) : str -> option nat := posMap_from 0 (params p).
(** src/ErrorPropagator.cpp:86-93 *)
Fixpoint place (pos : str -> option nat) (superSet : nat) (l : list parameter) : list nat * list parameter :=
  match l with
  | [] => ([], [])
  | q :: r =>
      match pos (pname q) with
      | Some k => let '(props, new) := place pos superSet r in (k :: props, new)
      | None => let '(props, new) := place pos (S superSet) r in (superSet :: props, q :: new)
      end
  end.
(** src/ErrorPropagator.cpp:80-107. Entries outside a matrix are NaN in ROOT, here undefined. *)
Definition add (p p2 : propagator) : res propagator :=
  if Nat.leb (size p) (rows (cov p)) && Nat.leb (size p2) (rows (cov p2)) then
    let oldSize := size p in
    let '(props, new) := place (posMap p) oldSize (params p2) in
    let superSet := oldSize + List.length new in
    let m := if Nat.eqb superSet oldSize then cov p else resize (cov p) superSet in
    let e := fold_left (fun e xy => assign e (fst xy) (snd xy) (entry (cov p) (fst xy) (snd xy))) (square oldSize) (entry m) in
    let e := fold_left (fun e xy => let xp := nth (fst xy) props 0 in let yp := nth (snd xy) props 0 in assign e xp yp (e xp yp + entry (cov p2) (fst xy) (snd xy))%R) (square (size p2)) e in
    Ok (Prop_ (Matrix (rows m) e) (params p ++ new))
  else UB.
(** src/ErrorPropagator.cpp:151-159 *)
Definition reset (p : propagator) : propagator := Prop_ (Matrix (rows (cov p)) (fun _ _ => 0%R)) [].

(** A run: the result, the parameters after it, and the parameters at each evaluation of a function. *)
Definition run (A : Type) : Type := res (A * store * list store).
Section Run.
  Variable p : propagator.
  (** AmpGen/ErrorPropagator.h:73-82 *)
  Definition derivative (f : store -> num) (i : nat) (s : store) : run num :=
    match nth_error (params p) i with
    | None => UB
    | Some q =>
        match nth_error s (addr q) with
        | None => UB
        | Some startingValue =>
            let e := sqrt_ (Some (entry (cov p) i i)) in
            let s1 := put s (addr q) (add_ startingValue e) in
            let plus_variation := f s1 in
            let s2 := put s1 (addr q) (sub_ startingValue e) in
            let minus_variation := f s2 in
            let s3 := put s2 (addr q) startingValue in
            Ok (div_ (sub_ plus_variation minus_variation) (mul_ (Some 2%R) e), s3, [s1; s2])
        end
    end.
  (** Loop over the parameters; [again]: whether the function is evaluated once more after each. *)
  Fixpoint derivatives (again : bool) (f : store -> num) (is : list nat) (s : store) : run (list num) :=
    match is with
    | [] => Ok ([], s, [])
    | i :: r =>
        bind (derivative f i s) (fun '(d, s1, log) =>
        bind (derivatives again f r s1) (fun '(ds, s2, log2) => Ok (d :: ds, s2, log ++ (if again then [s1] else []) ++ log2)))
    end.
  (** Dot( e, m_cov * e ) *)
  Definition quadratic (n : nat) (e e' : nat -> num) : num := sum_ n (fun i => mul_ (e i) (sum_ n (fun j => mul_ (Some (entry (cov p) i j)) (e' j)))).
  (** src/ErrorPropagator.cpp:109-121 *)
  Definition getError (f : store -> num) (s : store) : run num :=
    let N := rows (cov p) in
    bind (derivatives true f (seq 0 N) s) (fun '(ds, s1, log) => let e i := nth i ds None in Ok (sqrt_ (quadratic N e e), s1, log)).

  (** src/ErrorPropagator.cpp:123-149: functions with [RANK] values; the error is computed once for both sides. *)
  Definition vderivative (f : store -> nat -> num) (RANK i : nat) (s : store) : run (list num) :=
    match nth_error (params p) i with
    | None => UB
    | Some q =>
        match nth_error s (addr q) with
        | None => UB
        | Some startingValue =>
            let error := sqrt_ (Some (entry (cov p) i i)) in
            let min := sub_ startingValue error in
            let max := add_ startingValue error in
            let s1 := put s (addr q) max in
            let s2 := put s1 (addr q) min in
            let s3 := put s2 (addr q) startingValue in
            Ok (map (fun j => div_ (sub_ (f s1 j) (f s2 j)) (mul_ (Some 2%R) error)) (seq 0 RANK), s3, [s1; s2])
        end
    end.
  Fixpoint vderivatives (f : store -> nat -> num) (RANK : nat) (is : list nat) (s : store) : run (list (list num)) :=
    match is with
    | [] => Ok ([], s, [])
    | i :: r => bind (vderivative f RANK i s) (fun '(d, s1, log) => bind (vderivatives f RANK r s1) (fun '(ds, s2, log2) => Ok (d :: ds, s2, log ++ log2)))
    end.
  Definition getVectorError (f : store -> nat -> num) (RANK : nat) (s : store) : run (list num) :=
    let N := rows (cov p) in
    bind (vderivatives f RANK (seq 0 N) s) (fun '(ds, s1, log) =>
      let e j i := nth j (nth i ds []) None in Ok (map (fun j => sqrt_ (quadratic N (e j) (e j))) (seq 0 RANK), s1, log ++ [s1])).

  (** src/ErrorPropagator.cpp:161-181 *)
  Fixpoint rows_of (fs : list (store -> num)) (s : store) : run (list (list num)) :=
    match fs with
    | [] => Ok ([], s, [])
    | f :: r => bind (derivatives false f (seq 0 (size p)) s) (fun '(d, s1, log) => bind (rows_of r s1) (fun '(ds, s2, log2) => Ok (d :: ds, s2, log ++ log2)))
    end.
  Definition entries (N : nat) (A : list (list num)) (i j : nat) : num :=
    let a k l := nth l (nth k A []) None in sum_ N (fun k => sum_ N (fun l => mul_ (mul_ (a i k) (Some (entry (cov p) k l))) (a j l))).
  Definition covarianceMatrix (fs : list (store -> num)) (s : store) : run (nat -> nat -> num) :=
    if Nat.leb (size p) (rows (cov p)) then bind (rows_of fs s) (fun '(A, s1, log) => Ok (entries (size p) A, s1, log)) else UB.
  (** src/ErrorPropagator.cpp:240-251 *)
  Definition correlationMatrix (fs : list (store -> num)) (s : store) : run (nat -> nat -> num) :=
    bind (covarianceMatrix fs s) (fun '(C, s1, log) => Ok (fun i j => div_ (C i j) (sqrt_ (mul_ (C i i) (C j j))), s1, log)).

  (** src/ErrorPropagator.cpp:211-227, 183-209. [inverse]: TMatrixD::Invert. *)
  Variable inverse : nat -> (nat -> nat -> R) -> nat -> nat -> R.
  Definition all_some (M : nat) (C : nat -> nat -> num) : option (nat -> nat -> R) :=
    if forallb (fun xy => match C (fst xy) (snd xy) with Some _ => true | None => false end) (square M) then Some (fun i j => match C i j with Some x => x | None => 0%R end) else None.
  Fixpoint sum (n : nat) (f : nat -> R) : R := match n with 0 => 0%R | S m => (sum m f + f m)%R end.
  Definition wt (M : nat) (ci : nat -> nat -> R) : R := sum M (fun i => sum M (fun j => ci i j)).
  Definition weights_of (M : nat) (ci : nat -> nat -> R) (i : nat) : num := sum_ M (fun j => div_ (Some (ci i j)) (Some (wt M ci))).
  Definition combinationWeights (fs : list (store -> num)) (s : store) : run (nat -> num) :=
    let M := List.length fs in
    bind (covarianceMatrix fs s) (fun '(C, s1, log) => Ok (match all_some M C with Some c => weights_of M (inverse M c) | None => fun _ => None end, s1, log)).
  Definition combinationCovWeighted (fs : list (store -> num)) (s : store) : run (num * num) :=
    let M := List.length fs in
    bind (covarianceMatrix fs s) (fun '(C, s1, log) =>
    match all_some M C with
    | None => Ok ((None, None), s1, log ++ map (fun _ => s1) fs)
    | Some c =>
        let ci := inverse M c in
        let weights i := sum M (fun j => ci i j) in
        let w := Some (wt M ci) in
        let pred := sum_ M (fun i => div_ (mul_ (nth i fs (fun _ => None) s1) (Some (weights i))) w) in
        let sigma2 := sum_ M (fun i => sum_ M (fun j => div_ (Some (weights i * weights j * c i j)%R) (mul_ w w))) in
        Ok ((pred, sqrt_ sigma2), s1, log ++ map (fun _ => s1) fs)
    end).
End Run.
