(** Model of src/Projection.cpp and AmpGen/ArgumentPack.h: histograms of a function of the events. Real numbers stand for double.
    Of ROOT: TH1D is the contents of its cells, 0 and n+1 those below and above the range; Fill, Integral and Scale as ROOT
    documents them. [E] is the type of events. Not represented: titles, colours, errors of the contents, two-dimensional histograms. *)
From Verif.Common Require Import Prelude.
From Coq Require Import Reals.
Local Open Scope R_scope.

(** ** Named arguments *)
(** src/Projection.cpp, AmpGen/Projection.h:92-100, AmpGen/EventList.h (WeightFunction): an argument holds the value of its type. *)
Inductive tag := LineColor | DrawStyle | Selection | Prefix | Norm | AddTo | AutoWrite | WeightFunction.
Inductive value (E : Type) :=
  VInt (z : Z) | VStr (s : str) | VCut (f : option (E -> bool)) | VReal (r : R) | VBool (b : bool) | VFcn (f : option (E -> R)).
Arguments VInt {E}. Arguments VStr {E}. Arguments VCut {E}. Arguments VReal {E}. Arguments VBool {E}. Arguments VFcn {E}.
Definition tag_eqb (a b : tag) : bool :=
  match a, b with
  | LineColor, LineColor | DrawStyle, DrawStyle | Selection, Selection | Prefix, Prefix | Norm, Norm | AddTo, AddTo
  | AutoWrite, AutoWrite | WeightFunction, WeightFunction => true | _, _ => false end.
Definition pack (E : Type) := list (tag * value E).
(** AmpGen/ArgumentPack.h:77-85: the first argument of that type. *)
Fixpoint get {E} (t : tag) (args : pack E) : option (value E) :=
  match args with [] => None | (t', v) :: args' => if tag_eqb t t' then Some v else get t args' end.
(** AmpGen/ArgumentPack.h:86-91 *)
Definition getArg {E} (t : tag) (default : value E) (args : pack E) : value E := match get t args with Some v => v | None => default end.

(** ** Histograms *)
Notation hist := (nat -> R) (only parsing).
Record projection (E : Type) := Projection { func : E -> R; pname : str; nBins : nat; pmin : R; pmax : R }.
Arguments func {E}. Arguments pname {E}. Arguments nBins {E}. Arguments pmin {E}. Arguments pmax {E}. Arguments Projection {E}.
(** TAxis::FindBin for bins of equal width; the conversion to int of a number that is not negative. *)
Definition findBin (n : nat) (min max x : R) : nat :=
  if Rlt_dec x min then 0%nat else if Rlt_dec x max then S (Z.to_nat (Int_part (INR n * (x - min) / (max - min)))) else S n.
Definition empty : hist := fun _ => 0.
Definition Fill (h : hist) (b : nat) (w : R) : hist := fun k => if (k =? b)%nat then h k + w else h k.
Definition Scale (c : R) (h : hist) : hist := fun k => c * h k.
Fixpoint upto (h : hist) (n : nat) : R := match n with 0%nat => 0 | S m => upto h m + h (S m) end.
Definition Integral (n : nat) (h : hist) : R := upto h n.

Section Events.
  Variables (E : Type) (weight genPdf : E -> R).
  Implicit Types (p : projection E) (args : pack E).
  Definition bin p (e : E) : nat := findBin (nBins p) (pmin p) (pmax p) (func p e).
  (** src/Projection.cpp:55-57, 31: int() of a double drops what follows the point. *)
  Definition trunc (x : R) : Z := if Rle_dec 0 x then Int_part x else (- Int_part (- x))%Z.
  Definition binFunctor p (e : E) : Z := trunc ((func p e - pmin p) / ((pmax p - pmin p) / INR (nBins p))).
  Definition passes (cut : option (E -> bool)) (e : E) : bool := match cut with None => true | Some f => f e end.
  Definition cut_of args : option (E -> bool) := match getArg Selection (VCut None) args with VCut f => f | _ => None end.
  (** src/Projection.cpp:79-99; the result with whether it is written. *)
  Definition project p (events : list E) args : hist * bool :=
    let weightFunction := match getArg WeightFunction (VFcn None) args with VFcn f => f | _ => None end in
    let autowrite := match get AutoWrite args with None => false | Some _ => true end in
    (fold_left (fun h e => if passes (cut_of args) e
                           then Fill h (bin p e) (weight e * match weightFunction with None => 1 | Some f => f e / genPdf e end) else h) events empty,
     autowrite).

  (** src/Projection.cpp:137: one value for each histogram. *)
  Fixpoint fill_each (b : nat) (e : E) (ws : list R) (hs : list (str * hist)) : res (list (str * hist)) :=
    match ws, hs with
    | [], _ => Ok hs
    | w :: ws', (k, h) :: hs' => bind (fill_each b e ws' hs') (fun r => Ok ((k, Fill h b (weight e * w / genPdf e)) :: r))
    | _ :: _, [] => UB
    end.
  (** src/Projection.cpp:133-138; AmpGen/KeyedFunctors.h:21-26. *)
  Fixpoint fill_events p (cut : option (E -> bool)) (fs : list (str * (E -> R))) (events : list E) (hs : list (str * hist)) : res (list (str * hist)) :=
    match events with
    | [] => Ok hs
    | e :: events' =>
        if passes cut e then bind (fill_each (bin p e) e (map (fun f => snd f e) fs) hs) (fill_events p cut fs events')
        else fill_events p cut fs events' hs
    end.
  (** src/Projection.cpp:139: sorted by the integral; histograms with the same integral in any order, here as they were. *)
  Fixpoint insert (n : nat) (x : str * hist) (l : list (str * hist)) : list (str * hist) :=
    match l with [] => [x] | y :: l' => if Rlt_dec (Integral n (snd y)) (Integral n (snd x)) then y :: insert n x l' else x :: y :: l' end.
  Definition sort (n : nat) (l : list (str * hist)) : list (str * hist) := fold_right (insert n) [] l.
  (** src/Projection.cpp:118-156: the histograms, which are also those of the stack, and whether they are written. *)
  Definition project_each p (events : list E) (fs : list (str * (E -> R))) args : res (list (str * hist) * bool) :=
    let norm_sum := match getArg Norm (VReal 1) args with VReal r => r | _ => 0 end in
    let prefix := match getArg Prefix (VStr []) args with VStr s => s | _ => [] end in
    let prefix := match prefix with [] => [] | _ => prefix ++ S_ "_" end in
    let autowrite := match get AutoWrite args with None => false | Some _ => true end in
    bind (fill_events p (cut_of args) fs events (map (fun f => (prefix ++ fst f ++ S_ "_" ++ pname p, empty)) fs)) (fun hs =>
      let hs := sort (nBins p) hs in
      let total := fold_left (fun t h => t + Integral (nBins p) (snd h)) hs 0 in
      Ok (if Req_EM_T norm_sum (-1) then hs
          else if Req_EM_T total 0 then hs else map (fun h => (fst h, Scale (norm_sum / total) (snd h))) hs, autowrite)).
End Events.
