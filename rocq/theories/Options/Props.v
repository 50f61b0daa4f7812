From Verif.Common Require Import Prelude.
From Verif.Options Require Import Model Spec Proofs.

(** ** C09 *)
(** The full claim: every line with balanced quotations is read as the words it is written as, a '#' outside
    quotations starting a comment. [reads] covers all such lines except a '#' glued to the end of a word. *)
Theorem C09_tokenise_partial : forall line ws b, reads line ws b -> forall depth,
  makeParsedStrings line depth = (ws, (depth + b)%Z).
Proof. exact makeParsedStrings_reads. Qed.
Print Assumptions C09_tokenise_partial.
Example C09_example : reads (S_ "EventType ""D0 K+"" { # note") [S_ "EventType"; S_ "D0 K+"; S_ "{"] 1.
Proof.
  apply (r_plain (S_ "EventType") (S_ " ""D0 K+"" { # note") _ 1); [discriminate| |left; now left|].
  - repeat constructor; discriminate.
  - apply r_blank; [now left|]. apply (r_quoted (S_ "D0 K+") (S_ " { # note")); [discriminate|simpl; intuition discriminate|].
    apply r_blank; [now left|]. apply (r_plain (S_ "{") (S_ " # note") [] 0); [discriminate| |left; now left|].
    + repeat constructor; discriminate.
    + apply r_blank; [now left|]. apply r_comment.
Qed.

(** No line whatever makes the parser invent, merge or reorder words, and the words do not depend on the depth. *)
Theorem C09_pieces : forall line depth,
  pieces (fst (makeParsedStrings line depth)) line /\
  fst (makeParsedStrings line depth) = fst (makeParsedStrings line 0) /\
  snd (makeParsedStrings line depth) = (depth + snd (makeParsedStrings line 0))%Z.
Proof.
  exact (fun line depth => conj (makeParsedStrings_pieces line depth)
    (conj (f_equal fst (makeParsedStrings_depth line depth)) (f_equal snd (makeParsedStrings_depth line depth)))).
Qed.
Print Assumptions C09_pieces.

(** A comment that starts right after a word swallows the word. *)
Theorem C09_glued_comment_refuted : exists line word comment depth,
  line = word ++ "#"%char :: comment /\ word <> [] /\ Forall plain word /\ fst (makeParsedStrings line depth) = [].
Proof.
  exists (S_ "x#y"), (S_ "x"), (S_ "y"), 0%Z. repeat split; try discriminate. repeat constructor; discriminate.
Qed.

(** ** C10 *)
Theorem C10_last_wins : forall imp h, Forall option_line h -> exists p,
  feed (addArg imp) h empty_parser = Ok p /\
  (forall k, map_find k (parsed p) = last_with_key k h) /\
  getInputOrdered p = Ok (map (fun l => current h (hd [] l)) h).
Proof. exact inputs_ordered. Qed.
Print Assumptions C10_last_wins.
(** The full claim is that the ordered list has one entry for each key; it does when no key is repeated. *)
Theorem C10_ordered_partial : forall imp h, Forall option_line h -> NoDup (map (hd []) h) -> exists p,
  feed (addArg imp) h empty_parser = Ok p /\ getInputOrdered p = Ok h.
Proof. exact inputs_distinct. Qed.
Print Assumptions C10_ordered_partial.
Example C10_example : Forall option_line [[S_ "nEvents"; S_ "100"]; [S_ "Seed"; S_ "1"]] /\
  NoDup (map (hd []) [[S_ "nEvents"; S_ "100"]; [S_ "Seed"; S_ "1"]]).
Proof. split; [repeat constructor; cbn; intuition discriminate|]. repeat constructor; simpl; intuition discriminate. Qed.
(** An overridden option is listed twice. *)
Theorem C10_ordered_duplicate_refuted : exists imp h p l1 l2, Forall option_line h /\
  feed (addArg imp) h empty_parser = Ok p /\ getInputOrdered p = Ok [l1; l2] /\ hd [] l1 = hd [] l2.
Proof.
  exists (fun _ q => Ok q), [[S_ "a"; S_ "1"]; [S_ "a"; S_ "2"]]. eexists. exists [S_ "a"; S_ "2"], [S_ "a"; S_ "2"].
  split; [repeat constructor; cbn; intuition discriminate|]. split; [reflexivity|]. split; reflexivity.
Qed.

(** ** C11 *)
(** The full claim: every logical line of a file is handed over exactly once, in order, with all its words.
    Proved when the braces of the file balance in the end and no line inside a block is a comment. *)
Theorem C11_blocks_partial : forall (w : str -> list str) (b : str -> Z) lines out,
  (forall l, In l lines -> ignoreThisLine l = false /\ reads l (w l) (b l) /\ w l <> []) ->
  logical w b lines out ->
  forall A (add : list str -> A -> res A) a, lines_loop add lines [] 0 a = feed add out a.
Proof. exact lines_loop_blocks. Qed.
Print Assumptions C11_blocks_partial.
(** Whatever the file, nothing is invented, repeated or reordered: what is handed over, followed by what is still
    pending at the end of the file, is all the words of the file. *)
Theorem C11_conservation : forall lines, exists out pending,
  (forall A (add : list str -> A -> res A) a, lines_loop add lines [] 0 a = feed add out a) /\
  stripped (List.concat (map (fun l => fst (makeParsedStrings l 0)) (filter (fun l => negb (ignoreThisLine l)) lines)))
    (List.concat out ++ strip pending).
Proof.
  exact (fun lines => match lines_loop_conserves lines [] 0%Z with
    | ex_intro _ out (ex_intro _ pend (conj H E)) =>
        ex_intro _ out (ex_intro _ pend (conj H (eq_ind_r (stripped _) (strip_stripped _) E))) end).
Qed.
Print Assumptions C11_conservation.
Example C11_example : lines_loop (fun l log => Ok (log ++ [l]))
  [S_ "a 1"; S_ "b {"; S_ "2"; S_ "}"; S_ "c 3"] [] 0 [] = Ok [[S_ "a"; S_ "1"]; [S_ "b"; S_ "2"]; [S_ "c"; S_ "3"]].
Proof. reflexivity. Qed.
Example C11_example_hyp : let lines := [S_ "b {"; S_ "}"] in
  (forall l, In l lines -> ignoreThisLine l = false /\ reads l (words l) (bal l) /\ words l <> []) /\
  logical words bal lines [[S_ "b"]].
Proof.
  cbn zeta. split.
  - intros l [<-|[<-|[]]]; (split; [reflexivity|split; [|discriminate]]).
    + apply (r_plain (S_ "b") (S_ " {") [S_ "{"] 1); [discriminate|repeat constructor; discriminate|left; now left|].
      apply r_blank; [now left|].
      apply (r_plain (S_ "{") [] [] 0); [discriminate|repeat constructor; discriminate|exact I|constructor].
    + apply (r_plain (S_ "}") [] [] 0); [discriminate|repeat constructor; discriminate|exact I|constructor].
  - apply (lg_block words bal [S_ "b {"; S_ "}"] [] [S_ "b"] []).
    + discriminate.
    + reflexivity.
    + intros [|x [|y pre]] suf E H1 H2; [congruence| |].
      * injection E as <- <-. vm_compute. discriminate.
      * injection E as <- <- E. destruct pre; simpl in E; [congruence|discriminate].
    + cbn. apply st_keep; [intros [|]; discriminate|]. apply st_drop; [now left|]. apply st_drop; [now right|]. constructor.
    + constructor.
Qed.
(** A block left open at the end of the file is dropped without a message. *)
Theorem C11_open_block_refuted : exists content p,
  file_lines content = [S_ "a {"; S_ "b 1"] /\
  import (fun _ => Some content) (fun n => n) 1 [] empty_parser = Ok p /\ getInputOrdered p = Ok [].
Proof.
  exists (S_ "a {" ++ ["010"%char] ++ S_ "b 1"), empty_parser. repeat split; vm_compute; reflexivity.
Qed.
(** A stray closing brace swallows the rest of the file. *)
Theorem C11_stray_brace_refuted : forall rest, Forall (fun l => bal l = 0%Z) rest ->
  forall A (add : list str -> A -> res A) a, lines_loop add (S_ "}" :: rest) [] 0 a = Ok a.
Proof. exact stray_brace. Qed.
(** A line with nothing but braces reads the first element of an empty vector. *)
Theorem C11_empty_block_refuted : exists content,
  import (fun _ => Some content) (fun n => n) 1 [] empty_parser = UB.
Proof. exists (S_ "{ }"). vm_compute. reflexivity. Qed.

(** ** C61 *)
(** The full claim: reading an options file always terminates. Proved when the imports are not circular. *)
Theorem C61_import_terminates_partial : forall fs expand (rank : str -> nat),
  (forall name content f, fs name = Some content -> In [S_ "Import"; f] (delivered (file_lines content)) ->
     rank (expand f) < rank name) ->
  forall fuel name p, rank name < fuel -> import fs expand fuel name p <> OutOfFuel.
Proof. exact import_terminates. Qed.
Print Assumptions C61_import_terminates_partial.
(** [delivered] is the list of lines the loop hands over. *)
Theorem C61_delivered : forall A (add : list str -> A -> res A) lines a,
  lines_loop add lines [] 0 a = feed add (delivered lines) a.
Proof. exact @lines_loop_delivered. Qed.
Print Assumptions C61_delivered.
Definition C61_fs (n : str) : option str :=
  if str_eqb n (S_ "a") then Some (S_ "Import b") else if str_eqb n (S_ "b") then Some (S_ "x 1") else None.
Example C61_example : (forall name content f, C61_fs name = Some content -> In [S_ "Import"; f] (delivered (file_lines content)) ->
  (if str_eqb f (S_ "a") then 1 else 0) < (if str_eqb name (S_ "a") then 1 else 0)) /\
  exists p, import C61_fs (fun n => n) 2 (S_ "a") empty_parser = Ok p /\ getInputOrdered p = Ok [[S_ "x"; S_ "1"]].
Proof.
  split.
  - intros name content f. unfold C61_fs. destruct (str_eqb name (S_ "a")).
    + intros E. injection E as <-. vm_compute. intros [H|[]]. injection H as <-. vm_compute. lia.
    + destruct (str_eqb name (S_ "b")); [|discriminate]. intros E. injection E as <-. vm_compute. intros [H|[]]. discriminate.
  - eexists. split; [vm_compute; reflexivity|]. vm_compute. reflexivity.
Qed.
Theorem C61_self_import_refuted : exists fs name, fs name <> None /\
  forall fuel p, import fs (fun n => n) fuel name p = OutOfFuel.
Proof.
  exists self_fs, (S_ "a"). split; [discriminate|]. exact import_self_diverges.
Qed.
Print Assumptions C61_self_import_refuted.
