(** What is expected of the propagators of a decay. *)
From Verif.Common Require Import Prelude.
From Coq Require Import Reals.
From Coquelicot Require Import Hierarchy Complex.
From Verif.Propagators Require Import Model.
Local Open Scope nat_scope.
(** All particles of the decay. *)
Fixpoint particles (p : particle) : list particle := match p with Particle _ _ _ _ ds => p :: flat_map particles ds end.
Fixpoint product (l : list C) : C := match l with [] => RtoC 1 | x :: r => (x * product r)%C end.
(** [w] is part of [x]. *)
Definition part (w x : str) : Prop := exists a b, x = a ++ w ++ b.
(** The name of the lineshape of a particle: none if it does not decay, or only to one particle with a form factor or a Breit-Wigner; of fixed width for three particles
    or more; otherwise its own. *)
Inductive has_shape : particle -> option str -> Prop :=
| stable n x s L : has_shape (Particle n x s L nil) None
| passed n x s L d : part (S_ "BW") x \/ part (S_ "FormFactor") x -> has_shape (Particle n x s L (d :: nil)) None
| single n x s L d : ~ part (S_ "BW") x -> ~ part (S_ "FormFactor") x -> has_shape (Particle n x s L (d :: nil)) (Some x)
| pair n x s L d e : has_shape (Particle n x s L (d :: e :: nil)) (Some x)
| fixed_width n s L d e f ds : has_shape (Particle n (S_ "BW") s L (d :: e :: f :: ds)) (Some (S_ "SBW"))
| many n x s L d e f ds : x <> S_ "BW" -> has_shape (Particle n x s L (d :: e :: f :: ds)) (Some x).
(** What a particle contributes. *)
Definition contributes (m : registry) (p : particle) (c : C) : Prop :=
  has_shape p None /\ c = RtoC 1 \/ exists x, has_shape p (Some x) /\ get m x p = Ok c.
(** The text of a lineshape: its name, or with a modifier after a point. *)
Definition written (k mod_ x : str) : Prop := ~ In "."%char k /\ (x = k /\ mod_ = [] \/ x = k ++ S_ "." ++ mod_).
(** Shapes that use the factory at most for their modifier. *)
Definition modest (m : registry) : Prop :=
  forall k f, lookup m k = Some (Generic f) -> forall fac fac' p mod_, (mod_ <> [] -> fac mod_ p = fac' mod_ p) -> f fac p mod_ = f fac' p mod_.
