(** What a parameter set is supposed to be. *)
From Verif.Common Require Import Prelude.
From Verif.Enum Require Import Spec.
From Verif.Minuit Require Import Model.

Section Spec.
  Variable D : Type.
  Notation pset := (pset D).
  Notation param := (param D).

  (** C12. Access by position and access by name agree and names are unique. *)
  Definition consistent (s : pset) : Prop :=
    (forall i a, at_ D i s = Some a -> exists p, deref D s a = Ok p /\ find D (name D p) s = Some a) /\
    (forall k a, find D k s = Some a -> exists i p, at_ D i s = Some a /\ deref D s a = Ok p /\ name D p = k) /\
    (forall i j a b p q, at_ D i s = Some a -> at_ D j s = Some b -> deref D s a = Ok p -> deref D s b = Ok q ->
       name D p = name D q -> i = j).

  (** The sets built by the public operations, with new parameters having a new name. *)
  Inductive reachable : pset -> Prop :=
  | r_empty : reachable (empty_set D)
  | r_add s p b s' : reachable s -> find D (name D p) s = None -> add_new D p s = Ok (b, s') -> reachable s'
  | r_addOrGet s p a s' : reachable s -> addOrGet D p s = Ok (a, s') -> reachable s'
  | r_rename s k k' b s' : reachable s -> rename D k k' s = Ok (b, s') -> reachable s'
  | r_change s f a s' : reachable s -> (forall p, name D (f p) = name D p) -> modify D f a s = Ok s' -> reachable s'.

  (** The parameters in order, as seen by iterating over the set. *)
  Definition holds (s : pset) (ps : list param) : Prop := map (deref D s) (vec D s) = map Ok ps.

  Definition floats (p : param) : Prop := flag D p = 0%Z \/ flag D p = 4%Z.

  (** C13. [fitted k xs ps qs]: the floating ones among [ps] take the values [xs] in order and are numbered from [k];
      nothing else changes. *)
  Inductive fitted : nat -> list D -> list param -> list param -> Prop :=
  | f_nil k : fitted k [] [] []
  | f_fixed k xs p ps qs : ~ floats p -> fitted k xs ps qs -> fitted k xs (p :: ps) (p :: qs)
  | f_float k x xs p q ps qs : floats p ->
      mean D q = x -> index D q = Z.of_nat k ->
      name D q = name D p -> flag D q = flag D p -> meanInit D q = meanInit D p -> stepInit D q = stepInit D p ->
      minInit D q = minInit D p -> maxInit D q = maxInit D p -> errPos D q = errPos D p -> errNeg D q = errNeg D p ->
      err D q = err D p ->
      fitted (S k) xs ps qs -> fitted k (x :: xs) (p :: ps) (q :: qs).

  (** C14. What a line declares: name, flag, value, step, limits. *)
  Record decl := { d_name : str; d_flag : Z; d_mean : D; d_step : D; d_min : D; d_max : D }.
  Definition flag_word (w : str) (f : Z) : Prop :=
    In (w, f) [(S_ "Free", 0); (S_ "Hide", 1); (S_ "Fix", 2); (S_ "CompileTimeConstant", 3); (S_ "Blind", 4);
               (S_ "0", 0); (S_ "1", 1); (S_ "2", 2); (S_ "3", 3); (S_ "4", 4)]%Z.
  (** What is accepted as a flag: also the empty word and any other number than that of Invalid. *)
  Definition loose_flag (w : str) (f : Z) : Prop := flag_word w f \/ ((w = [] \/ number_word w) /\ f <> 5%Z).
  Variables (zero m9999 : D) (num : str -> option D) (flag_ok : str -> Z -> Prop).
  Inductive declares : list str -> list decl -> Prop :=
  | d_scalar n w f m m' s s' : flag_ok w f -> num m = Some m' -> num s = Some s' ->
      declares [n; w; m; s] [{| d_name := n; d_flag := f; d_mean := m'; d_step := s'; d_min := zero; d_max := zero |}]
  | d_limits n w f m m' s s' a a' b b' : flag_ok w f -> num m = Some m' -> num s = Some s' -> num a = Some a' -> num b = Some b' ->
      declares [n; w; m; s; a; b] [{| d_name := n; d_flag := f; d_mean := m'; d_step := s'; d_min := a'; d_max := b' |}]
  | d_complex n w1 f1 m1 m1' s1 s1' w2 f2 m2 m2' s2 s2' :
      flag_ok w1 f1 -> num m1 = Some m1' -> num s1 = Some s1' -> flag_ok w2 f2 -> num m2 = Some m2' -> num s2 = Some s2' ->
      declares [n; w1; m1; s1; w2; m2; s2]
        [{| d_name := n ++ S_ "_Re"; d_flag := f1; d_mean := m1'; d_step := s1'; d_min := zero; d_max := zero |};
         {| d_name := n ++ S_ "_Im"; d_flag := f2; d_mean := m2'; d_step := s2'; d_min := zero; d_max := zero |}]
  | d_complex_limits n w1 f1 m1 m1' s1 s1' a1 a1' b1 b1' w2 f2 m2 m2' s2 s2' a2 a2' b2 b2' :
      flag_ok w1 f1 -> num m1 = Some m1' -> num s1 = Some s1' -> num a1 = Some a1' -> num b1 = Some b1' ->
      flag_ok w2 f2 -> num m2 = Some m2' -> num s2 = Some s2' -> num a2 = Some a2' -> num b2 = Some b2' ->
      declares [n; w1; m1; s1; a1; b1; w2; m2; s2; a2; b2]
        [{| d_name := n ++ S_ "_Re"; d_flag := f1; d_mean := m1'; d_step := s1'; d_min := a1'; d_max := b1' |};
         {| d_name := n ++ S_ "_Im"; d_flag := f2; d_mean := m2'; d_step := s2'; d_min := a2'; d_max := b2' |}].

  (** A parameter as declared: the current value is the declared value, the error the step, no asymmetric errors. *)
  Definition as_declared (d : decl) (p : param) : Prop :=
    name D p = d_name d /\ flag D p = d_flag d /\ meanInit D p = d_mean d /\ mean D p = d_mean d /\
    stepInit D p = d_step d /\ err D p = d_step d /\ minInit D p = d_min d /\ maxInit D p = d_max d /\
    errPos D p = m9999 /\ errNeg D p = m9999 /\ index D p = (-1)%Z.
End Spec.
