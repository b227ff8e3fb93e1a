(** Properties C53, C54 (the parsers on other inputs). Statements only; every proof is a lemma of the proof layer. *)
From Verif Require Import ProofGeneric2.

(** * C53: a parser does on a [&str] what it does on a located span of the same text. *)
Theorem C53_parsers :
  (forall i ix, parse_parameter_in slice_ops (unlocated i) ix =
     (map_result unlocated (map_parameter unlocated) (fst (parse_parameter i ix)), snd (parse_parameter i ix))) /\
  (forall i, parse_optional_in slice_ops (unlocated i) =
     map_result unlocated (map_optional unlocated) (parse_optional i)) /\
  (forall i, parse_alternative_in slice_ops (unlocated i) =
     map_result unlocated (map_alternative unlocated) (parse_alternative i)) /\
  (forall i, parse_alternation_in slice_ops (unlocated i) =
     map_result unlocated (map_alternation unlocated) (parse_alternation i)) /\
  (forall i ix, parse_single_expression_in slice_ops (unlocated i) ix =
     (map_result unlocated (map_single unlocated) (fst (parse_single_expression i ix)), snd (parse_single_expression i ix))) /\
  (forall i, parse_expression_in slice_ops (unlocated i) =
     map_result unlocated (map_expression unlocated) (parse_expression i)).
Proof. exact (any_view slice_ops unlocated hom_slice). Qed.
(** So it always returns. *)
Theorem C53_returns :
  (forall t ix, ix < usize_max -> returns_in (fst (parse_parameter_in slice_ops t ix))) /\
  (forall t, returns_in (parse_optional_in slice_ops t)) /\
  (forall t, returns_in (parse_alternative_in slice_ops t)) /\
  (forall t, returns_in (parse_alternation_in slice_ops t)) /\
  (forall t ix, ix < usize_max -> returns_in (fst (parse_single_expression_in slice_ops t ix))) /\
  (forall t, addressable (chars_of t) -> returns_in (parse_expression_in slice_ops t)).
Proof. exact slice_returns. Qed.
(** [Expression::parse] accepts exactly what [parse::expression] parses to the end, into the same parts. *)
Theorem C53_expression : forall p s e,
  (exists a, expression_parse s = RetOk a /\ map_expression frag a = e) <->
  (exists rest a, parse_expression_in slice_ops (mkslice p s) = GOk rest a /\ chars_of rest = [] /\
     map_expression chars_of a = e).
Proof. exact str_expression. Qed.
(** The same for every other input type whose operations do to its values what those of spans do to spans. *)
Theorem C53_any_input : forall (J : Type) (ops : input_ops J) h, hom ops h ->
  (forall i ix, parse_parameter_in ops (h i) ix =
     (map_result h (map_parameter h) (fst (parse_parameter i ix)), snd (parse_parameter i ix))) /\
  (forall i, parse_optional_in ops (h i) = map_result h (map_optional h) (parse_optional i)) /\
  (forall i, parse_alternative_in ops (h i) = map_result h (map_alternative h) (parse_alternative i)) /\
  (forall i, parse_alternation_in ops (h i) = map_result h (map_alternation h) (parse_alternation i)) /\
  (forall i ix, parse_single_expression_in ops (h i) ix =
     (map_result h (map_single h) (fst (parse_single_expression i ix)), snd (parse_single_expression i ix))) /\
  (forall i, parse_expression_in ops (h i) = map_result h (map_expression h) (parse_expression i)).
Proof. exact @any_view. Qed.
(** Expansion gives the same characters and the same errors whatever the input type, without and with
    custom parameters. *)
Theorem C53_expansion : forall (I J : Type) (el : I -> str) (el' : J -> str) (h : I -> J),
  (forall i, el' (h i) = el i) ->
  (forall e, expand_expression el' (map_expression h e) = map (map_item h) (expand_expression el e)) /\
  (forall digits spaces words to_string get get', (forall i, get' (h i) = get i) -> forall e,
     expand_expression_custom el' digits spaces words to_string get' (map_expression h e) =
     map (map_item h) (expand_expression_custom el digits spaces words to_string get e)).
Proof.
  exact (fun I J el el' h H => conj (expand_map el el' h H)
    (fun d s w t g g' G => expand_custom_expression_map el el' h H d s w t g g' G)).
Qed.
Print Assumptions C53_parsers. Print Assumptions C53_returns. Print Assumptions C53_expression.
Print Assumptions C53_any_input. Print Assumptions C53_expansion.
Example C53_example : addressable (s_ "a/b {int}") /\ hom slice_ops unlocated /\ hom span_ops (fun i => i) /\
  parse_expression_in slice_ops (mkslice 100 (s_ "a/b {int}")) =
    GOk (mkslice 109 [])
      [ExAlternation [[AltText (mkslice 100 (s_ "a"))]; [AltText (mkslice 102 (s_ "b"))]];
       ExWhitespaces (mkslice 103 (s_ " ")); ExParameter (mkParameter (mkslice 105 (s_ "int")) 0)] /\
  parse_optional_in slice_ops (mkslice 7 (s_ "(a{b}")) = GBad (GFailure (ParameterInOptional (mkslice 9 (s_ "{b}")))).
Proof. split; [vm_compute; easy|]. split; [exact hom_slice|]. split; [exact hom_span|]. vm_compute. now split. Qed.

(** * C54: where the input lies does not matter: moved by [o] bytes and [l] lines, a parser gives the same with
    every location moved. *)
Theorem C54_moved : forall o l,
  (forall i ix, parse_parameter (moved o l i) ix =
     (moved_result o l map_parameter (fst (parse_parameter i ix)), snd (parse_parameter i ix))) /\
  (forall i, parse_optional (moved o l i) = moved_result o l map_optional (parse_optional i)) /\
  (forall i, parse_alternative (moved o l i) = moved_result o l map_alternative (parse_alternative i)) /\
  (forall i, parse_alternation (moved o l i) = moved_result o l map_alternation (parse_alternation i)) /\
  (forall i ix, parse_single_expression (moved o l i) ix =
     (moved_result o l map_single (fst (parse_single_expression i ix)), snd (parse_single_expression i ix))) /\
  (forall i, parse_expression (moved o l i) = moved_result o l map_expression (parse_expression i)).
Proof. exact moved_parsers. Qed.
Print Assumptions C54_moved.
Example C54_example : moved 10 3 (span_new (s_ "(a")) = mkspan 10 4 (s_ "(a") /\
  parse_optional (span_new (s_ "(a")) = Bad (BFailure (UnfinishedOptional (mkspan 0 1 (s_ "(")))) /\
  parse_optional (mkspan 10 4 (s_ "(a")) = Bad (BFailure (UnfinishedOptional (mkspan 10 4 (s_ "(")))).
Proof. vm_compute. repeat split. Qed.
