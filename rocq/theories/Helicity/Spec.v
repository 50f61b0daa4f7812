From Coq Require Import Reals ZArith List.
From Coquelicot Require Import Complex.
From Verif.Wigner Require Import Spec.
From Verif.Helicity Require Import Model.
Import ListNotations.

Definition sumC {A} (l : list A) (f : A -> C) : C := fold_right (fun a s => (f a + s)%C) (RtoC 0) l.
(** L and S for which spins j1, j2 give J; all doubled. *)
Definition wave (J L S j1 j2 : Z) : Prop := Z.even L = true /\ (0 <= L)%Z /\ couples j1 j2 S /\ couples L S J.
(** A decay chain with possible spins, in which no momentum is along the quantisation axis. *)
Fixpoint sound (d : decay) : Prop :=
  match d with
  | Stable _ J _ => (0 <= J <= 2)%Z
  | Many J => (0 <= J)%Z
  | Single J d1 => spin d1 = J /\ sound d1
  | Decay J L S0 P d1 d2 =>
      (0 <= J)%Z /\ (0 <= S0)%Z /\ pt2 P <> 0%R /\ Z.even (J + spin d1 + spin d2) = true /\ (S0 = 0%Z -> exists s, wave J L s (spin d1) (spin d2)) /\ sound d1 /\ sound d2
  end.
(** The values for every projection. *)
Definition amplitudes (d : decay) (A : Z -> C) : Prop := forall M, projection (spin d) M -> helicityAmplitude d M = Some (A M).
(** A particle, not a photon, with spin j and helicity m. *)
Definition definite (d : decay) (j m : Z) : Prop :=
  spin d = j /\ isPhoton d = false /\ amplitudes d (fun m' => if Z.eqb m' m then RtoC 1 else RtoC 0).
(** Indices of one digit. *)
Fixpoint one_digit (t : itree) : Prop := match t with Leaf i => i < 10 | Node ds => fold_right (fun d p => one_digit d /\ p) True ds end.
