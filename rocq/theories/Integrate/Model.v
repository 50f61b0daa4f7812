(** Adaptive integration: AmpGen/NumericalIntegration.h:62-204, AmpGen/simd/integrate_fp.h:10-47, 109-173 (the scalar variant).
    Real numbers instead of doubles. *)
From Verif.Common Require Import Prelude.
From Coq Require Import Reals.
Local Open Scope R_scope.

(** AmpGen/simd/integrate_fp.h:10-48 *)
Record constants := Constants { xl2 : R; xl4 : R; xl5 : R; w2 : R; w4 : R; wp2 : R; wp4 : R; wn1 : list R; wn3 : list R; wn5 : list R; wpn1 : list R; wpn3 : list R }.
Definition dec (n : Z) (k : nat) : R := IZR n / 10 ^ k.
Definition table : constants := {|
  xl2 := dec 358568582800318073 18; xl4 := dec 948683298050513796 18; xl5 := dec 688247201611685289 18;
  w2 := 980 / 6561; w4 := 200 / 19683; wp2 := 245 / 486; wp4 := 25 / 729;
  wn1 := [dec (-193872885230909911) 18; dec (-555606360818980835) 18; dec (-876695625666819078) 18; dec (-115714067977442459) 17; dec (-139694152314179743) 17;
          dec (-159609815576893754) 17; dec (-175461057765584494) 17; dec (-187247878880251983) 17; dec (-194970278920896201) 17; dec (-198628257887517146) 17;
          dec (-198221815780114818) 17; dec (-193750952598689219) 17; dec (-185215668343240347) 17; dec (-172615963013768225) 17];
  wn3 := [dec 518213686937966768 19; dec 314992633236803330 19; dec 111771579535639891 19; dec (-914494741655235473) 20; dec (-294670527866686986) 19;
          dec (-497891581567850424) 19; dec (-701112635269013768) 19; dec (-904333688970177241) 19; dec (-110755474267134071) 18; dec (-131077579637250419) 18;
          dec (-151399685007366752) 18; dec (-171721790377483099) 18; dec (-192043895747599447) 18; dec (-212366001117715794) 18];
  wn5 := [dec 871183254585174982 19; dec 435591627292587508 19; dec 217795813646293754 19; dec 108897906823146873 19; dec 544489534115734364 20;
          dec 272244767057867193 20; dec 136122383528933596 20; dec 680611917644667955 21; dec 340305958822333977 21; dec 170152979411166995 21;
          dec 850764897055834977 22; dec 425382448527917472 22; dec 212691224263958736 22; dec 106345612131979372 22];
  wpn1 := [dec (-133196159122085045) 17; dec (-229218106995884763) 17; dec (-311522633744855959) 17; dec (-380109739368998611) 17; dec (-434979423868312742) 17;
           dec (-476131687242798352) 17; dec (-503566529492455417) 17; dec (-517283950617283939) 17; dec (-517283950617283939) 17; dec (-503566529492455417) 17;
           dec (-476131687242798352) 17; dec (-434979423868312742) 17; dec (-380109739368998611) 17; dec (-311522633744855959) 17];
  wpn3 := [dec 445816186556927292 19; dec (-240054869684499309) 19; dec (-925925925925925875) 19; dec (-161179698216735251) 18; dec (-229766803840877915) 18;
           dec (-298353909465020564) 18; dec (-366941015089163228) 18; dec (-435528120713305891) 18; dec (-504115226337448555) 18; dec (-572702331961591218) 18;
           dec (-641289437585733882) 18; dec (-709876543209876532) 18; dec (-778463648834019195) 18; dec (-847050754458161859) 18] |}.

(** z[j] += p, for arrays as lists *)
Fixpoint add_at (z : list R) (j : nat) (p : R) : list R :=
  match z, j with [], _ => [] | x :: r, O => x + p :: r | x :: r, S k => x :: add_at r k p end.

Section Rule.
  Variable C : constants.
  Variable F : list R -> R.
  (** AmpGen/simd/integrate_fp.h:112-130 *)
  Definition eval (z : list R) (p : R) (ind : nat) : R := F (add_at z ind p).
  Definition eval_2 (z : list R) (p : R) (ind : nat) (p2 : R) (ind2 : nat) : R := F (add_at (add_at z ind p) ind2 p2).
  (** AmpGen/simd/integrate_fp.h:144-162 *)
  Record sums := Sums { sum2 : R; sum3 : R; sum4 : R; difmax : R; idvaxn : nat }.
  Definition pairs (ctr wth : list R) (j k : nat) (sum4 : R) : R :=
    let wj := nth j wth 0 in let wk := nth k wth 0 in
    sum4 + eval_2 ctr (xl4 C * wj) j (xl4 C * wk) k + eval_2 ctr (xl4 C * wj) j (- xl4 C * wk) k
         + eval_2 ctr (- xl4 C * wj) j (xl4 C * wk) k + eval_2 ctr (- xl4 C * wj) j (- xl4 C * wk) k.
  Definition coordinate (dim : nat) (ctr wth : list R) (sum1 : R) (s : sums) (j : nat) : sums :=
    let wj := nth j wth 0 in
    let f2 := eval ctr (- xl2 C * wj) j + eval ctr (xl2 C * wj) j in
    let f3 := eval ctr (- xl4 C * wj) j + eval ctr (xl4 C * wj) j in
    let dif := Rabs (7 * f2 - f3 - 12 * sum1) in
    Sums (sum2 s + f2) (sum3 s + f3) (fold_left (fun sum4 k => pairs ctr wth j k sum4) (seq (S j) (dim - S j)) (sum4 s))
         (if Rle_dec (difmax s) dif then dif else difmax s) (if Rle_dec (difmax s) dif then j else idvaxn s).
  (** AmpGen/simd/integrate_fp.h:165 *)
  Definition corner (dim : nat) (ctr wth : list R) (j : nat) : list R :=
    map (fun k => nth k ctr 0 + (if Nat.testbit j k then 1 else -1) * xl5 C * nth k wth 0) (seq 0 dim).
  (** AmpGen/simd/integrate_fp.h:132-172. The tables have entries for two to fifteen dimensions. *)
  Definition integrate_fp (dim : nat) (ctr wth : list R) : res (R * R * nat) :=
    let rgnvol := fold_left (fun v j => v * nth j wth 0) (seq 0 dim) (2 ^ dim) in
    let sum1 := F ctr in
    let s := fold_left (coordinate dim ctr wth sum1) (seq 0 dim) (Sums 0 0 0 0 0) in
    let sum5 := fold_left (fun sum5 j => sum5 + F (corner dim ctr wth j)) (seq 0 (2 ^ dim)) 0 in
    if (dim <? 2)%nat then UB else
    match nth_error (wpn1 C) (dim - 2), nth_error (wpn3 C) (dim - 2), nth_error (wn1 C) (dim - 2), nth_error (wn3 C) (dim - 2), nth_error (wn5 C) (dim - 2) with
    | Some p1, Some p3, Some n1, Some n3, Some n5 =>
        let rgncmp := rgnvol * (p1 * sum1 + wp2 C * sum2 s + p3 * sum3 s + wp4 C * sum4 s) in
        let rgnval := rgnvol * (n1 * sum1 + w2 C * sum2 s + n3 * sum3 s + w4 C * sum4 s + n5 * sum5) in
        Ok (rgnval, Rabs (rgnval - rgncmp), idvaxn s)
    | _, _, _, _, _ => UB
    end.
End Rule.

(** AmpGen/NumericalIntegration.h:62-69 *)
Record integral := Integral { value : R; var : R; index : nat; a : list R; b : list R }.
Definition get (l : list integral) (i : nat) : res integral := of_opt (nth_error l i).
Fixpoint put (l : list integral) (i : nat) (x : integral) : res (list integral) :=
  match l, i with
  | [], _ => UB
  | _ :: r, O => Ok (x :: r)
  | y :: r, S k => bind (put r k x) (fun r' => Ok (y :: r'))
  end.
(** AmpGen/NumericalIntegration.h:149-158 *)
Fixpoint sift_down (fuel : nat) (slots : list integral) (isbrgs isbrgn : nat) (rgnerr : R) : res (list integral * nat) :=
  match fuel with
  | O => OutOfFuel
  | S f =>
      let isbtmp := (2 * isbrgn)%nat in
      if (isbrgs <? isbtmp)%nat then Ok (slots, isbrgn) else
      bind (if (isbtmp <? isbrgs)%nat
            then bind (get slots isbtmp) (fun x => bind (get slots (S isbtmp)) (fun y => Ok (if Rlt_dec (var x) (var y) then S isbtmp else isbtmp)))
            else Ok isbtmp) (fun isbtmp =>
      bind (get slots isbtmp) (fun c =>
      if Rle_dec (var c) rgnerr then Ok (slots, isbrgn) else
      bind (put slots isbrgn c) (fun slots => sift_down f slots isbrgs isbtmp rgnerr)))
  end.
(** AmpGen/NumericalIntegration.h:161-168. The condition of the loop reads the same slot again, which has not changed. *)
Fixpoint sift_up (fuel : nat) (slots : list integral) (isbrgn : nat) (rgnerr : R) : res (list integral * nat) :=
  match fuel with
  | O => OutOfFuel
  | S f =>
      let isbtmp := (isbrgn / 2)%nat in
      if (isbtmp <? 1)%nat then Ok (slots, isbrgn) else
      bind (get slots isbtmp) (fun p =>
      if Rlt_dec (var p) rgnerr then bind (put slots isbrgn p) (fun slots => sift_up f slots isbtmp rgnerr) else Ok (slots, isbrgn))
  end.

(** AmpGen/NumericalIntegration.h:105-121 *)
Definition epsrel : R := / 10 ^ 10.
Definition epsabs : R := 0.
Definition maxpts : Z := 1000000.
Definition irlcls (dim : nat) : Z := (2 ^ Z.of_nat dim + 2 * Z.of_nat dim * (Z.of_nat dim + 1) + 1)%Z.
Definition minpts (dim : nat) : Z := irlcls dim.
(** AmpGen/NumericalIntegration.h:123 *)
Definition size (dim : nat) : nat := Z.to_nat ((1 + maxpts / irlcls dim) / 2).

(** AmpGen/NumericalIntegration.h:132-200: the variables of the loop. [current] is the slot current_integral points to. *)
Record state := State { slots : list integral; result : R; abserr : R; ifncls : Z; ldv : bool; isbrgn : nat; isbrgs : nat; current : nat; idvax0 : nat }.
Inductive next := Again (s : state) | Done (result : R) (status : nat).
Definition set_ab (x y : list R) (e : integral) : integral := Integral (value e) (var e) (index e) x y.
Fixpoint halve_at (z : list R) (j : nat) : list R :=
  match z, j with [], _ => [] | x :: r, O => x * (1 / 2) :: r | x :: r, S k => x :: halve_at r k end.
Definition lt (x y : R) : bool := if Rlt_dec x y then true else false.
(** AmpGen/NumericalIntegration.h:187-198 *)
Definition divide (dim : nat) (slots : list integral) (result abserr : R) (ifncls : Z) (isbrgs : nat) : res next :=
  if ((List.length slots - 1 <=? isbrgs)%nat || (maxpts <? ifncls + 2 * irlcls dim)%Z)%bool then Ok (Done result 2) else
  bind (get slots 1) (fun c =>
  let b' := halve_at (b c) (index c) in
  let a' := add_at (a c) (index c) (- nth (index c) b' 0) in
  bind (put slots 1 (set_ab a' b' c)) (fun slots =>
  Ok (Again (State slots (result - value c) (abserr - var c) ifncls true 1 isbrgs 1 (index c))))).
(** AmpGen/NumericalIntegration.h:135-200 *)
Definition body (rule : list R -> list R -> res (R * R * nat)) (dim : nat) (s : state) : res next :=
  bind (get (slots s) (current s)) (fun cur =>
  bind (rule (a cur) (b cur)) (fun '(rgnval, rgnerr, idvaxn) =>
  let result := result s + rgnval in
  let abserr := abserr s + rgnerr in
  let ifncls := (ifncls s + irlcls dim)%Z in
  let aresult := Rabs result in
  let tmp := Integral rgnval rgnerr idvaxn (a cur) (b cur) in
  let fuel := S (List.length (slots s)) in
  bind (if ldv s then sift_down fuel (slots s) (isbrgs s) (isbrgn s) rgnerr else sift_up fuel (slots s) (isbrgn s) rgnerr) (fun '(slots, isbrgn) =>
  bind (put slots isbrgn tmp) (fun slots =>
  if ldv s then
    let isbrgs := S (isbrgs s) in
    bind (get slots isbrgn) (fun c => bind (get slots isbrgs) (fun n =>
    bind (put slots isbrgs (set_ab (add_at (a c) (idvax0 s) (2 * nth (idvax0 s) (b c) 0)) (b c) n)) (fun slots =>
    Ok (Again (State slots result abserr ifncls false isbrgs isbrgs isbrgs (idvax0 s))))))
  else
    let relerr := if Req_EM_T aresult 0 then abserr else abserr / aresult in
    if ((lt relerr epsrel && lt aresult epsabs) || ((lt relerr epsrel || lt abserr epsabs) && (minpts dim <? ifncls)%Z))%bool
    then Ok (Done result 0)
    else divide dim slots result abserr ifncls (isbrgs s))))).
Fixpoint loop (fuel : nat) (rule : list R -> list R -> res (R * R * nat)) (dim : nat) (s : state) : res R :=
  match fuel with
  | O => OutOfFuel
  | S f => bind (body rule dim s) (fun n => match n with Again s' => loop f rule dim s' | Done r _ => Ok r end)
  end.
(** AmpGen/NumericalIntegration.h:104-203, for more than one dimension. The first slot holds the whole region. *)
Definition integrate (C : constants) (dim : nat) (F : list R -> R) (xmin xmax : list R) : res R :=
  let zero := Integral 0 0 0 (repeat 0 dim) (repeat 0 dim) in
  bind (put (repeat zero (size dim)) 0 (set_ab (map (fun j => (nth j xmax 0 + nth j xmin 0) * (1 / 2)) (seq 0 dim)) (map (fun j => (nth j xmax 0 - nth j xmin 0) * (1 / 2)) (seq 0 dim)) zero))
    (fun slots => loop (2 * size dim + 2) (integrate_fp C F dim) dim (State slots 0 0 0 false 1 1 0 0)).

(** AmpGen/NumericalIntegration.h:95-102, for one dimension: [qags] is the integration of the GSL library. A function of a number is integrated,
    but the result is not returned. *)
Definition integrate1 (takes_number : bool) (qags : (R -> R) -> R -> R -> R) (F : R -> R) (xmin xmax : R) : R :=
  if takes_number then let unused := qags F xmin xmax in 0 else qags F xmin xmax.
