(** Property C61 (the regex of an expression; expressions with the same regex). Statements only. *)
From Verif Require Import ProofSame2.

(** * C61: two expressions get the same regex exactly if they differ in spelling only. *)
Theorem C61_same_regex : forall s1 s2 e1 e2 t1 t2 r1 r2, addressable s1 -> addressable s2 ->
  expression_parse s1 = RetOk e1 -> expression_parse s2 = RetOk e2 ->
  expression_regex s1 = XOk t1 r1 -> expression_regex s2 = XOk t2 r2 ->
  (t1 = t2 <-> unspelled (map_expression frag e1) = unspelled (map_expression frag e2)) /\
  (r1 = r2 <-> unspelled (map_expression frag e1) = unspelled (map_expression frag e2)).
Proof. exact same_regex. Qed.
(** The regex, character by character. *)
Theorem C61_written : forall s e t r, addressable s ->
  expression_parse s = RetOk e -> expression_regex s = XOk t r ->
  exists u, written 0 (unspelled (map_expression frag e)) u /\ t = s_ "^" ++ u ++ s_ "$".
Proof. exact regex_written. Qed.
Theorem C61_written_once : forall k l t, written k l t -> forall t', written k l t' -> t = t'.
Proof. exact written_unique. Qed.
(** With custom parameters: the same outcome, up to where in the source the offending parameter stands. *)
Theorem C61_custom : forall digits spaces words to_string get, blind get -> forall s1 s2 e1 e2,
  addressable s1 -> addressable s2 -> expression_parse s1 = RetOk e1 -> expression_parse s2 = RetOk e2 ->
  unspelled (map_expression frag e1) = unspelled (map_expression frag e2) ->
  let x1 := regex_with_parameters digits spaces words to_string get s1 in
  let x2 := regex_with_parameters digits spaces words to_string get s2 in
  match x1 with
  | XExpansion (NotFound i) => exists j, x2 = XExpansion (NotFound j) /\ frag j = frag i
  | XExpansion (RenameRegexGroup i t) => exists j, x2 = XExpansion (RenameRegexGroup j t) /\ frag j = frag i
  | _ => x2 = x1
  end.
Proof. exact same_outcome. Qed.
Print Assumptions C61_custom. Print Assumptions C61_same_regex. Print Assumptions C61_written. Print Assumptions C61_written_once.

Definition outline (s : str) : option (list part) :=
  match expression_parse s with RetOk e => Some (unspelled (map_expression frag e)) | _ => None end.
(** A ")" or "}" and a space may be escaped in a text or not; the order of the branches, and an optional that could be
    a branch, make a difference. *)
Example C61_example :
  outline (s_ "a\)b\ (c\}) {int}") = outline (s_ "a)b (c}) {int}") /\
  outline (s_ "a)b (c}) {int}") = Some (map (fun c => Piece (Char c)) (s_ "a)b ") ++
    [Piece (Maybe (s_ "c}")); Piece (Char (c_ " ")); Param (s_ "int")]) /\
  expression_regex (s_ "a\)b\ (c\}) {int}") = expression_regex (s_ "a)b (c}) {int}") /\
  outline (s_ "a/b") <> outline (s_ "b/a") /\ outline (s_ "a(b)") <> outline (s_ "a/ab") /\
  outline (s_ "{int}") <> outline (s_ "{float}").
Proof. vm_compute. repeat split; discriminate. Qed.

Definition colours (i : span) : option str := if str_eqb (frag i) (s_ "colour") then Some (s_ "(red)|(blue)") else None.
Definition colour_regex := regex_with_parameters [] [] [] (fun _ => s_ "(?P<__0_0>red)|(?P<__0_1>blue)") colours.
Example C61_custom_example : blind colours /\
  (exists t r, colour_regex (s_ "a\)\ {colour}") = XOk t r) /\ colour_regex (s_ "a\)\ {colour}") = colour_regex (s_ "a) {colour}") /\
  colour_regex (s_ "a\)\ {size}") = XExpansion (NotFound (mkspan 6 1 (s_ "size"))) /\
  colour_regex (s_ "a) {size}") = XExpansion (NotFound (mkspan 4 1 (s_ "size"))).
Proof.
  split; [intros i j H; unfold colours; now rewrite H|].
  split; [vm_compute; eexists _, _; reflexivity|]. vm_compute. repeat split.
Qed.
