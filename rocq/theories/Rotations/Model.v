(** Wigner's small d functions: src/Wigner.cpp:27-71, src/Expression.cpp:322-327. Spins and projections are represented by
    their doubles. The expression is represented by its value at a real number [cb]; that the sum is multiplied out
    (Wigner.cpp:69) does not change the value is C22. Real numbers instead of doubles. *)
From Coq Require Import Reals ZArith List.
From Verif.Wigner Require Import Model.
Import ListNotations.
Local Open Scope R_scope.

(** src/Wigner.cpp:34-38 *)
Definition binomialCoefficient (n r : nat) : R := fold_left (fun z f => z * (IZR (Z.of_nat n + 1 - Z.of_nat f) / INR f)) (seq 1 r) 1.
(** src/Expression.cpp:322-327, for n >= 0 *)
Fixpoint fpow (x : R) (n : nat) : R := match n with O => 1 | S k => fpow x k * x end.
(** src/Wigner.cpp:40-45 *)
Definition expandedBinomial (x : R) (n : nat) : R := fold_left (fun sum k => sum + binomialCoefficient n k * fpow x k) (seq 0 (S n)) 0.
(** The root of a negative number is not a number. *)
Definition root (x : R) : option R := if Rlt_dec x 0 then None else Some (sqrt x).
(** modf(t/4) has the fractional part 0.5. *)
Definition half (t : Z) : bool := Z.eqb (Z.rem t 4) 2.

(** src/Wigner.cpp:47-71. The exponents (65, 66) are not negative within the loop (for projections of j). pow(-1., j+m) is
    not a number unless j+m is an integer. *)
Definition wigner_d (cb : R) (J M N : Z) : option R :=
  let k_min := Z.max 0 ((M + N) / 2) in
  let k_max := Z.quot (Z.min (J + M) (J + N)) 2 in
  let w2_num := IZR (fact2 (J + M) * fact2 (J - M) * fact2 (J + N) * fact2 (J - N)) in
  let frac_nc := half (4 * k_min - (M + N)) in
  let frac_ns := half (2 * J + (M + N) - 4 * k_min) in
  let fractional_part :=
    if (frac_nc && negb frac_ns)%bool then root (1 + cb)
    else if (negb frac_nc && frac_ns)%bool then root (1 - cb)
    else if (frac_nc && frac_ns)%bool then root (1 - cb * cb) else Some 1 in
  let term k :=
    let w_den := IZR (fact2 (2 * k) * fact2 (J + M - 2 * k) * fact2 (J + N - 2 * k) * fact2 (2 * k - M - N)) in
    let norm := IZR (sgn (Z.to_nat k)) * sqrt w2_num / (w_den * Rpower 2 (IZR J / 2)) in
    norm * expandedBinomial cb (Z.to_nat (Z.quot (4 * k - (M + N)) 4)) * expandedBinomial (- cb) (Z.to_nat (Z.quot (2 * J + (M + N) - 4 * k) 4)) in
  let sum := fold_left (fun sum i => sum + term (k_min + Z.of_nat i)%Z) (seq 0 (Z.to_nat (k_max - k_min + 1))) 0 in
  if Z.even (J + M) then option_map (fun f => (if Z.even ((J + M) / 2) then 1 else -1) * f * sum) fractional_part else None.
