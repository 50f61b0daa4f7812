(** Decay trees as text, and when two particles mean the same. *)
From Verif.Descriptor Require Import Model.
From Verif.Utilities Require Import Model.

Fixpoint joined (sep : ascii) (l : list str) : str := match l with [] => [] | [s] => s | s :: r => s ++ sep :: joined sep r end.

(** A decay tree as the user writes it: name, modifiers, daughters. *)
Inductive tree := Tree (name : str) (mods : list str) (ds : list tree).
Definition head_text (n : str) (mods : list str) : str := match mods with [] => n | _ => n ++ "["%char :: joined ";" mods ++ ["]"%char] end.
Fixpoint text (t : tree) : str :=
  let '(Tree n mods ds) := t in
  match ds with [] => head_text n mods | _ => head_text n mods ++ "{"%char :: joined "," (map text ds) ++ ["}"%char] end.
Fixpoint height (t : tree) : nat := let '(Tree _ _ ds) := t in S (fold_right Nat.max 0 (map height ds)).
Fixpoint tree_names (t : tree) : names := let '(Tree n _ ds) := t in Names n (map tree_names ds).

Definition free_of (bad : list ascii) (s : str) : Prop := forall a, In a s -> ~ In a bad.
Definition punctuation : list ascii := ["{"; "}"; ","; "["; "]"; ";"]%char.
Definition ascii7 (s : str) : Prop := forall a, In a s -> nat_of_ascii a < 128.
Definition has (c : ascii) (s : str) : Prop := In c s.

(** The names registered as lineshapes do not look like other modifiers. *)
Definition shapes_ok (shapes : list str) : Prop := forall n, In n shapes ->
  2 <= List.length n /\ ~ has "." n /\ ~ has "=" n /\ (forall o c, In o orbitals -> n <> [o; c]) /\ n <> S_ "BgSpin0" /\ n <> S_ "Inco" /\ n <> S_ "NoSym".
(** A modifier without punctuation; a key=value has at least three characters and is not a lineshape. *)
Definition mod_ok (shapes : list str) (m : str) : Prop :=
  m <> [] /\ free_of punctuation m /\ ascii7 m /\ ~ has "000" m /\ (has "=" m -> 3 <= List.length m /\ isLineshape shapes m = false).
Definition is_vertex (m : str) : Prop := exists v, split m "=" true = [S_ "vertex"; v].
Definition is_short (shapes : list str) (m : str) : Prop := List.length m <= 2 /\ isLineshape shapes m = false.

Inductive tree_ok (w : world) : tree -> Prop :=
| tok n mods ds : free_of punctuation n -> known w n = true -> Forall (mod_ok (shapes w)) mods ->
    (forall m m', In m mods -> In m' mods -> is_vertex m -> ~ is_short (shapes w) m') ->
    (0 <= leastL w (tree_names (Tree n mods ds)) <= 6)%Z ->
    Forall (tree_ok w) ds -> tree_ok w (Tree n mods ds).
Definition world_ok (w : world) : Prop := shapes_ok (shapes w) /\ free_of punctuation (extra w) /\ ascii7 (extra w) /\ ~ has "=" (extra w) /\ ~ has "000" (extra w).

(** src/Particle.cpp:926-933 *)
Fixpoint attribute (key : str) (mods : list str) : option str :=
  match mods with
  | [] => None
  | m :: r => match split m "=" true with [k; v] => if str_eqb k key then Some v else attribute key r | _ => attribute key r end
  end.
(** The same amplitude: everything but the modifiers nothing asks about. *)
Definition same_state (a b : nstate) : Prop :=
  orbital a = orbital b /\ minL a = minL b /\ conf a = conf b /\ lineshape a = lineshape b /\ usesDefault a = usesDefault b /\ vertexName a = vertexName b /\
  (forall key, attribute key (modifiers a) = attribute key (modifiers b)) /\
  (forall m, In m [S_ "BgSpin0"; S_ "Inco"; S_ "NoSym"] -> (In m (modifiers a) <-> In m (modifiers b))).
Inductive same : particle -> particle -> Prop :=
| same_part n a b ds es : same_state a b -> Forall2 same ds es -> same (Part n a ds) (Part n b es).
(** The particle says what the tree says. *)
Inductive represents (w : world) : tree -> particle -> Prop :=
| rep n mods ds st es : modifiers st = mods -> minL st = leastL w (tree_names (Tree n mods ds)) -> Forall2 (represents w) ds es -> represents w (Tree n mods ds) (Part n st es).

(** For isValidDecayDescriptor. *)
Inductive plain_tree : tree -> Prop :=
| plt n mods ds : n <> [] -> free_of punctuation n -> n <> S_ "_Re" -> n <> S_ "_Im" -> Forall (free_of punctuation) mods -> Forall plain_tree ds -> plain_tree (Tree n mods ds).
Fixpoint all_names (t : tree) : list str := let '(Tree n _ ds) := t in n :: flat_map all_names ds.
(** No prefix (then "_" must not occur in the root), or a prefix up to the first "_". *)
Definition prefix_ok (pre : str) (t : tree) : Prop :=
  let '(Tree n mods _) := t in pre = [] /\ ~ has "_" (head_text n mods) \/ exists q, q <> [] /\ pre = q ++ ["_"%char] /\ free_of punctuation q /\ ~ has "_" q.
