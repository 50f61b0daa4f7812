From Verif.Common Require Import Prelude.
From Verif.Named Require Import Model Proofs.

(** ** C65 *)
(** The value(s) of a named parameter: those on the option line when all can be read, the default when there is no line
    or no value on it. The full claim is that an unreadable value leaves the default. *)
Theorem C65_given_partial : forall T (T0 : T) cast n w ws def, Forall (fun v => snd (cast v) = true) (w :: ws) ->
  named_vector T T0 cast (Some (n :: w :: ws)) def = Ok (map (fun v => fst (cast v)) (w :: ws)).
Proof. exact named_given. Qed.
Print Assumptions C65_given_partial.
Theorem C65_default_partial : forall T (T0 : T) cast line def, match line with Some (_ :: _ :: _) => False | _ => True end ->
  named_vector T T0 cast line def = Ok def.
Proof. exact named_default. Qed.
Print Assumptions C65_default_partial.
Example C65_example : named bool false cast_bool (Some [S_ "RunMinos"; S_ "true"]) false = Ok [true] /\
  named bool false cast_bool None true = Ok [true].
Proof. split; reflexivity. Qed.
(** With default true, the value "yes" is reported as unreadable and the parameter becomes false, not the default. *)
Theorem C65_unreadable_refuted : exists w, snd (cast_bool w) = false /\
  named bool false cast_bool (Some [S_ "UseThing"; w]) true = Ok [false].
Proof. exists (S_ "yes"). split; reflexivity. Qed.

(** ** C66 *)
(** The numbered options name0, name1, ... are collected until the first missing one. Proved when the default is the
    empty value; the full claim is for any default. *)
Theorem C66_numbered_partial : forall T (T0 : T) eqT cast, (forall a b, eqT a b = true <-> a = b) ->
  forall vs line fuel, List.length vs < fuel -> Forall (fun v => v <> T0) vs ->
  (forall i v, nth_error vs i = Some v -> exists n w ws, line i = Some (n :: w :: ws) /\ cast w = (v, true)) ->
  match line (List.length vs) with Some (_ :: _ :: _) => False | _ => True end ->
  getVectorArgument T T0 eqT cast fuel line T0 = Ok vs.
Proof. exact (fun T T0 eqT cast H vs line fuel => vector_argument_ok T T0 eqT cast H vs line 0 [] fuel). Qed.
Print Assumptions C66_numbered_partial.
Definition files (x : nat) : option (list str) := nth_error [[S_ "f0"; S_ "a.root"]; [S_ "f1"; S_ "b.root"]] x.
Example C66_example : getVectorArgument str [] str_eqb cast_string 9 files [] = Ok [S_ "a.root"; S_ "b.root"].
Proof. reflexivity. Qed.
(** With a default other than the empty value, the default is delivered as an additional value. *)
Theorem C66_default_refuted : exists line def, line 2 = None /\ line 0 = Some [S_ "f0"; S_ "a.root"] /\ line 1 = Some [S_ "f1"; S_ "b.root"] /\
  getVectorArgument str [] str_eqb cast_string 9 line def = Ok [S_ "a.root"; S_ "b.root"; def].
Proof. exists files, (S_ "none"). repeat split. Qed.
(** A given value equal to the default ends the list: the options after it are ignored. *)
Theorem C66_early_refuted : exists line def, line 0 = Some [S_ "f0"; S_ "a.root"] /\ line 1 = Some [S_ "f1"; S_ "b.root"] /\
  getVectorArgument str [] str_eqb cast_string 9 line def = Ok [S_ "a.root"].
Proof. exists files, (S_ "a.root"). repeat split. Qed.
(** A given value equal to the empty value is left out. *)
Theorem C66_dropped_refuted : exists line def, line 0 = Some [S_ "n0"; S_ "false"] /\ line 1 = None /\
  getVectorArgument bool false Bool.eqb cast_bool 9 line def = Ok [true].
Proof. exists (fun x => nth_error [[S_ "n0"; S_ "false"]] x), true. repeat split. Qed.
