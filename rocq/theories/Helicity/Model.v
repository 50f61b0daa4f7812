(** Helicity amplitudes of a decay chain: src/Wigner.cpp:128-160, 222-337. Spins, projections and orbital angular momenta are given by their
    doubles. Exact arithmetic; an expression is represented by its value, [None] is not a number. *)
From Coq Require Import Reals ZArith List Ascii.
From Coquelicot Require Import Complex.
From Verif.Common Require Import Prelude.
From Verif.Events Require Model.
From Verif.Wigner Require Import Model.
From Verif.Couplings Require Model.
From Verif.Rotations Require Import Model.
Import ListNotations.
Local Open Scope R_scope.

(** src/Wigner.cpp:128-136: cosine of the polar angle, and e^(i phi), of a three-momentum. *)
Definition momentum : Type := R * R * R.
Definition pt2 (P : momentum) : R := let '(x, y, _) := P in x * x + y * y.
Definition angCoordinates (P : momentum) : option (R * C) :=
  let '(x, y, z) := P in
  if Req_EM_T (pt2 P) 0 then None
  else Some (z / sqrt (x * x + y * y + z * z), (x / sqrt (pt2 P), y / sqrt (pt2 P))).
(** src/Expression.cpp:322-327 *)
Fixpoint cpow (x : C) (n : nat) : C := match n with O => RtoC 1 | S k => (cpow x k * x)%C end.
Definition cfpow (x : C) (n : Z) : C := if Z.ltb n 0 then (RtoC 1 / cpow x (Z.to_nat (- n)))%C else cpow x (Z.to_nat n).
(** src/Wigner.cpp:138-160 *)
Definition wigner_D (P : R * C) (J lA lB : Z) : option C :=
  match wigner_d (fst P) J lA lB with
  | Some d => if Z.eqb (Z.rem (lB - lA) 2) 0 then Some (cfpow (snd P) (Z.quot (lB - lA) 2) * RtoC d)%C else None
  | None => None
  end.

(** A particle and its decay. [Stable]: whether it is a photon, its spin, and the overlap of the state with a projection in its own frame with
    the polarisation it has in the laboratory (260-285; for a scalar 262 is used instead; for a higher spin 288 takes a daughter that does not exist). [Single], [Many]: one daughter, more than two. [Decay]:
    its spin, L(), S() (0 when the user does not set it), the momentum of its first daughter in its own frame (313; the frames are C73's),
    and two daughters. *)
Inductive decay :=
  | Stable (photon : bool) (J : Z) (overlap : Z -> C)
  | Single (J : Z) (d : decay)
  | Many (J : Z)
  | Decay (J L S : Z) (P : momentum) (d1 d2 : decay).
Definition spin (d : decay) : Z := match d with Stable _ J _ => J | Single J _ => J | Many J => J | Decay J _ _ _ _ _ => J end.
Definition isPhoton (d : decay) : bool := match d with Stable g _ _ => g | _ => false end.

(** src/Wigner.cpp:286-296. When there is none S is 999: the factorials in CG overflow and the coefficients are not numbers. *)
Definition chosen_S (J L S j1 j2 : Z) : option Z :=
  if Z.eqb S 0 then
    match Couplings.Model.spinOrbitCouplings (Couplings.Model.State J 0) [Couplings.Model.State j1 0; Couplings.Model.State j2 0] false with
    | Ok l => option_map snd (find (fun c => Z.eqb (fst c) L) l)
    | _ => None
    end
  else Some S.

(** The sum over the couplings (314-335). *)
Definition sum_terms (f : LS -> option C) (l : list LS) : option C :=
  fold_left (fun t c => match t, f c with Some a, Some b => Some (a + b)%C | _, _ => None end) l (Some (RtoC 0)).
(** src/Wigner.cpp:231-337, without user-defined couplings (298-305). *)
Fixpoint helicityAmplitude (d : decay) (Mz : Z) : option C :=
  match d with
  | Many _ => Some (RtoC 1)
  | Single _ d1 => helicityAmplitude d1 Mz
  | Stable _ J overlap => if Z.eqb J 0 then Some (if Z.eqb Mz 0 then RtoC 1 else RtoC 0) else if Z.eqb J 1 || Z.eqb J 2 then Some (overlap Mz) else None
  | Decay J L S0 P d1 d2 =>
      match chosen_S J L S0 (spin d1) (spin d2) with
      | None => None
      | Some s =>
          match recoupling J L s (spin d1) (spin d2), angCoordinates P with
          | Some couplings, Some hco =>
              sum_terms (fun c =>
                if (isPhoton d1 && Z.eqb (f_m1 c) 0) || (isPhoton d2 && Z.eqb (f_m2 c) 0) then Some (RtoC 0)
                else match wigner_D hco J Mz (f_m1 c - f_m2 c), helicityAmplitude d1 (f_m1 c), helicityAmplitude d2 (f_m2 c) with
                     | Some term, Some h1, Some h2 => Some (RtoC (f_factor c) * term * h1 * h2)%C
                     | _, _, _ => None
                     end) couplings
          | _, _ => None
          end
      end
  end.

(** The keys under which frames are kept (225-229, 250); a tree of indices. *)
Inductive itree := Leaf (index : nat) | Node (daughters : list itree).
Fixpoint index_string (t : itree) : str :=
  match t with
  | Leaf i => Events.Model.to_string i
  | Node ds => "{"%char :: flat_map index_string ds ++ ["}"%char]
  end.
