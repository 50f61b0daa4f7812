(** Allowed orbital angular momenta and spin-orbit couplings: src/Particle.cpp:599-654, 764-767. *)
From Verif.Common Require Export Prelude.
Open Scope Z_scope.

(** A particle here is twice its spin (props()->twoSpin()) and its parity. *)
Record state := State { twoSpin : Z; parity : Z }.

(** The values of a loop variable counting from [a] to [b] in steps of [k]. *)
Definition upto (a b k : Z) : list Z := map (fun i => a + k * Z.of_nat i) (seq 0 (Z.to_nat ((b - a) / k + 1))).

(** src/Particle.cpp:764-767, for L >= 0 *)
Definition conservesParity (p d1 d2 : state) (L : Z) : bool :=
  Z.eqb (parity p) (parity d1 * parity d2 * (if Z.eqb (Z.rem L 2) 0 then 1 else -1)).

(** src/Particle.cpp:607-621 *)
Definition range (p d1 d2 : state) : Z * Z :=
  let S := twoSpin p in
  let min_s12 := Z.abs (twoSpin d1 - twoSpin d2) in
  let max_s12 := Z.abs (twoSpin d1 + twoSpin d2) in
  let min := fold_left (fun m i => Z.min m (Z.abs (S - i))) (upto min_s12 max_s12 1) (Z.abs (S - min_s12)) in
  let max := Z.abs (S + max_s12) in
  (Z.quot min 2, Z.quot max 2).

(** src/Particle.cpp:599-635; the loops 626-627 and 630-632 find the first [l] from below and from above. *)
Definition orbitalRange (p : state) (ds : list state) (conserveParity : bool) : Z * Z :=
  match ds with
  | [] | [_] => (0, 0)
  | [d1; d2] =>
      let '(min, max) := range p d1 d2 in
      if negb conserveParity then (min, max)
      else match find (conservesParity p d1 d2) (upto min max 1) with
           | None => (999, 999)
           | Some l => (l, match find (conservesParity p d1 d2) (rev (upto min max 1)) with Some l' => l' | None => min - 1 end)
           end
  | _ => (999, 998)
  end.

(** src/Particle.cpp:637-654. L and S are kept doubled, so that the half-integers of the code are integers; [z2] is
    then four times the z2 of the code, and |z2/(2 L S)| <= 1 is |z2| <= 2 (2L)(2S). For spins below 2^20 every
    product in the code is exact, and a quotient above 1 is so by more than a rounding. daughter(0) and
    daughter(1) (642-643) need two daughters. *)
Definition spinOrbitCouplings (p : state) (ds : list state) (conserveParity : bool) : res (list (Z * Z)) :=
  match ds with
  | d1 :: d2 :: _ =>
      let '(first, second) := orbitalRange p ds conserveParity in
      Ok (flat_map (fun l =>
            if conserveParity && negb (conservesParity p d1 d2 l) then []
            else flat_map (fun S =>
                   let L := 2 * l in
                   let z2 := twoSpin p * twoSpin p - L * L - S * S in
                   (if negb (Z.eqb L 0) && negb (Z.eqb S 0) && Z.leb (Z.abs z2) (2 * L * S) then [(L, S)] else []) ++
                   (if (Z.eqb L 0 || Z.eqb S 0) && Z.eqb z2 0 then [(L, S)] else []))
                 (upto (Z.abs (twoSpin d1 - twoSpin d2)) (twoSpin d1 + twoSpin d2) 2))
          (upto first second 1))
  | _ => UB
  end.
