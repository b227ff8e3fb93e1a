(** Properties C51, C52: what [Regex::captures] returns on the regex of an expression with custom
    parameters, and how the values are found by the names of the groups. Statements only; every proof is
    a lemma of the proof layer. *)
From Verif Require Import ProofCaptures.

Definition cx_digits : ranges := [(48, 57)].
Definition cx_spaces : ranges := [(9, 13); (32, 32)].
Definition cx_words : ranges := [(48, 57); (65, 90); (95, 95); (97, 122)].
Definition cx_get : provider span := hash_map_get frag
  [(s_ "color", s_ "red|blue"); (s_ "pair", s_ "(\d+)-(?P<n>x|(y))"); (s_ "rep", s_ "(a)(b)*"); (s_ "cat", s_ "\b(cat)\b")].
Definition cx_captures (e subject : str) (k : list (option str) -> (str -> option str) -> Prop) : Prop :=
  match regex_with_parameters cx_digits cx_spaces cx_words (show true) cx_get e with
  | XOk _ r =>
      match captures (in_ranges cx_digits) (in_ranges cx_spaces) (in_ranges cx_words) r subject with
      | Some c => k c (capture_name r c)
      | None => False
      end
  | _ => False
  end.

(** * C51: a search succeeds iff the subject is a reading of the expression, and returns the values of
    one, parameter by parameter. *)
Theorem C51_custom : forall digits spaces words to_string get,
  tables_ok digits spaces words -> prints_meaning to_string ->
  forall s e t r, expression_parse s = RetOk e ->
  Forall (custom_valid frag get (tame digits spaces words)) (parameters e) ->
  regex_with_parameters digits spaces words to_string get s = XOk t r ->
  forall subject, Forall scalar subject ->
    (captures (in_ranges digits) (in_ranges spaces) (in_ranges words) r subject = None <->
     ~ exists vs, readings frag (custom_type digits spaces words frag get) e [] subject [] vs) /\
    forall c, captures (in_ranges digits) (in_ranges spaces) (in_ranges words) r subject = Some c ->
      exists vs, c = Some subject :: List.concat vs /\
        readings frag (custom_type digits spaces words frag get) e [] subject [] vs.
Proof. exact captures_custom. Qed.
(** The values per parameter are those of C25 and C32, cut at the right places. *)
Theorem C51_values : forall I (text : I -> str) param e pre s post v,
  means_in text param e pre s post v <-> exists vs, readings text param e pre s post vs /\ v = List.concat vs.
Proof. exact @means_readings. Qed.
Theorem C51_per_parameter : forall I (text : I -> str) param e pre s post vs,
  readings text param e pre s post vs ->
  Forall2 (fun p v => exists a b c, param p a b c v) (parameters e) vs.
Proof. exact @readings_parameters. Qed.
Print Assumptions C51_custom. Print Assumptions C51_values. Print Assumptions C51_per_parameter.
Example C51_example :
  cx_captures (s_ "{color} {rep} {string} {pair}") (s_ "blue abb 'q' 12-y") (fun c _ =>
    c = [Some (s_ "blue abb 'q' 12-y"); Some (s_ "blue"); Some (s_ "a"); Some (s_ "b"); None; Some (s_ "q");
         Some (s_ "12"); Some (s_ "y"); Some (s_ "y")]) /\
  ~ cx_captures (s_ "{color} {rep} {string} {pair}") (s_ "green abb 'q' 12-y") (fun _ _ => True).
Proof. vm_compute. intuition. Qed.
(** A matcher may look at the text around. *)
Example C51_example_word :
  cx_captures (s_ "{cat}{}") (s_ "cat-s") (fun c _ => c = [Some (s_ "cat-s"); Some (s_ "cat"); Some (s_ "-s")]) /\
  ~ cx_captures (s_ "{cat}{}") (s_ "cats") (fun _ _ => True).
Proof. vm_compute. intuition. Qed.

(** The text around: a word boundary is where a word char stands on exactly one side. *)
Theorem C51_boundary : forall digit space word pre m post c,
  (rm digit space word (RLook LWord) pre m post c <-> m = [] /\ c = [] /\
     (word_before word pre /\ ~ word_after word post \/ ~ word_before word pre /\ word_after word post)) /\
  (rm digit space word (RLook LNotWord) pre m post c <-> m = [] /\ c = [] /\
     ~ (word_before word pre /\ ~ word_after word post \/ ~ word_before word pre /\ word_after word post)).
Proof. exact rm_boundary. Qed.
Print Assumptions C51_boundary.
Example C51_boundary_case : word_before (in_ranges cx_words) (s_ "a cat") /\ ~ word_after (in_ranges cx_words) (s_ " b").
Proof. split; [now exists (s_ "a ca"), (c_ "t")|]. intros (c & b & E & H). injection E as <- _. discriminate H. Qed.

(** * C52: the group [__i_k] holds the [k]-th value of the [i]-th parameter. *)
Theorem C52_named : forall digits spaces words to_string get,
  tables_ok digits spaces words -> prints_meaning to_string ->
  forall s e t r, addressable s -> expression_parse s = RetOk e ->
  Forall (custom_valid frag get flat) (parameters e) ->
  regex_with_parameters digits spaces words to_string get s = XOk t r ->
  forall subject c, Forall scalar subject ->
    captures (in_ranges digits) (in_ranges spaces) (in_ranges words) r subject = Some c ->
    exists vs, c = Some subject :: List.concat vs /\
      readings frag (custom_type digits spaces words frag get) e [] subject [] vs /\
      forall i p v, nth_error (parameters e) i = Some p -> nth_error vs i = Some v ->
        forall k n, group_named (N.of_nat i) (N.of_nat k) n ->
          (has_names frag get p -> capture_name r c n = capture_get v k) /\
          (~ has_names frag get p -> capture_name r c n = None).
Proof. exact captures_named. Qed.
(** Each pair of numbers has one name, and a name is of one pair. *)
Theorem C52_names : forall i k n i' k' n', group_named i k n -> group_named i' k' n' ->
  (n = n' <-> i = i' /\ k = k').
Proof. exact group_named_inj. Qed.
Theorem C52_exists : forall i k, exists n, group_named i k n.
Proof. exact group_named_exists. Qed.
Print Assumptions C52_named. Print Assumptions C52_names. Print Assumptions C52_exists.
Example C52_example :
  Forall (custom_valid frag cx_get flat)
    (match expression_parse (s_ "{pair} {color} {pair} {string}") with RetOk e => parameters e | _ => [] end) /\
  cx_captures (s_ "{pair} {color} {pair} {string}") (s_ "1-x red 23-y 'q'") (fun _ name =>
    map (fun n => name n) [s_ "__0_0"; s_ "__0_1"; s_ "__0_2"; s_ "__1_0"; s_ "__2_0"; s_ "__2_1"; s_ "__2_2"; s_ "__3_0"; s_ "__3_1"; s_ "n"] =
    [Some (s_ "1"); Some (s_ "x"); None; None; Some (s_ "23"); Some (s_ "y"); Some (s_ "y"); None; Some (s_ "q"); None]).
Proof.
  split; [|vm_compute; reflexivity].
  change (match expression_parse (s_ "{pair} {color} {pair} {string}") with RetOk e => parameters e | _ => [] end) with
    [mkParameter (mkspan 1 1 (s_ "pair")) 0; mkParameter (mkspan 8 1 (s_ "color")) 1; mkParameter (mkspan 16 1 (s_ "pair")) 2;
     mkParameter (mkspan 23 1 (s_ "string")) 3].
  constructor; [|constructor; [|constructor; [|constructor; [|constructor]]]]; try (eexists; split; [vm_compute; reflexivity|cbn; auto]).
  cbn. auto.
Qed.
