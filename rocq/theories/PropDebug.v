(** Property C89 ([Debug] hides nothing). Statements only. *)
From Verif Require Import ProofDebug3 ProofDeclared SpecDeclared ProofBare SpecBare SpecAstDeclared ProofAstDeclared SpecShown ProofShown.

(** * C89: two expressions are printed alike, by [{:?}] or by [{:#?}], if and only if they are equal, whatever chars the standard
    library considers printable. *)
Theorem C89_expression : forall printable alternate a b,
  debug_text printable alternate (debug_expression debug_span a) = debug_text printable alternate (debug_expression debug_span b) <->
  expression_eq span_eq a b = true.
Proof. exact debug_equal. Qed.
Print Assumptions C89_expression.
(** So are parse errors. *)
Theorem C89_error : forall printable alternate a b,
  debug_text printable alternate (debug_parse_error debug_span a) = debug_text printable alternate (debug_parse_error debug_span b) <->
  error_eq span_eq a b = true.
Proof. exact debug_equal_error. Qed.
Print Assumptions C89_error.
(** Parsed expressions are printed alike if and only if they were written alike. *)
Theorem C89_parsed : forall printable alternate s1 s2 e1 e2, addressable s1 -> addressable s2 ->
  expression_parse s1 = RetOk e1 -> expression_parse s2 = RetOk e2 ->
  debug_text printable alternate (debug_expression debug_span e1) = debug_text printable alternate (debug_expression debug_span e2) <-> s1 = s2.
Proof. exact debug_parsed. Qed.
Print Assumptions C89_parsed.
(** Errors of the expansion (but for those of [Regex::new]), with the same [regex_syntax::Error] if any. *)
Theorem C89_expansion : forall err printable alternate x y d d', proper err = true ->
  debug_error debug_span err x = Some d -> debug_error debug_span err y = Some d' ->
  debug_text printable alternate d = debug_text printable alternate d' -> x = y.
Proof. exact error_tells_spans. Qed.
Print Assumptions C89_expansion.
(** Whatever the [Input], if its [Debug] makes different calls for different values. *)
Theorem C89_input : forall I (input : I -> dbg), (forall i, proper (input i) = true) -> (forall i j, input i = input j -> i = j) ->
  tells (debug_expression input) /\ tells (debug_parse_error input).
Proof. exact (fun I input H1 H2 => conj (expression_tells input H1 H2) (parse_error_tells input H1 H2)). Qed.
Print Assumptions C89_input.
(** [{:?}] is one line of visible chars. *)
Theorem C89_line : forall printable e,
  Forall (fun c => plainly printable c /\ c <> 10) (debug_text printable false (debug_expression debug_span e)).
Proof. exact expression_line. Qed.
Print Assumptions C89_line.
Theorem C89_line_error : forall printable e,
  Forall (fun c => plainly printable c /\ c <> 10) (debug_text printable false (debug_parse_error debug_span e)).
Proof. exact error_line. Qed.
Print Assumptions C89_line_error.
(** [{:#?}] is [{:?}] with other blanks, line breaks and commas outside of string literals. *)
Theorem C89_layout : forall I (input : I -> dbg) printable, (forall i, proper (input i) = true) ->
  (forall e, bare Outside_string (debug_text printable true (debug_expression input e)) = bare Outside_string (debug_text printable false (debug_expression input e))) /\
  (forall e, bare Outside_string (debug_text printable true (debug_parse_error input e)) = bare Outside_string (debug_text printable false (debug_parse_error input e))).
Proof. exact @expression_layout. Qed.
Print Assumptions C89_layout.
(** An error is printed as its type is declared: the name of a variant and its fields, of their types, in order and with their names,
    if they have any. *)
Theorem C89_declared : forall I (input : I -> dbg) err,
  (forall e, prints_one_of input err parse_error_type (debug_parse_error input e)) /\
  (forall e d, debug_param_error input err e = Some d -> prints_one_of input err param_error_type d) /\
  (forall x d, debug_error input err x = Some d -> prints_one_of input err expand_error_type d).
Proof. exact (fun I input err => conj (parse_error_declared input err) (conj (param_error_declared input err) (error_declared input err))). Qed.
Print Assumptions C89_declared.
(** So is every variant, but for that of [regex::Error]. *)
Theorem C89_all_declared : forall I (input : I -> dbg) err (i : I),
  (forall v, In v parse_error_type -> exists e, prints_variant input err v (debug_parse_error input e)) /\
  (forall v, In v param_error_type -> exists e d, debug_param_error input err e = Some d /\ prints_variant input err v d) /\
  (forall v, In v expand_error_type -> vr_name v = s_ "Regex" \/ exists x d, debug_error input err x = Some d /\ prints_variant input err v d).
Proof. exact @all_declared. Qed.
Print Assumptions C89_all_declared.
(** No name is declared twice. *)
Theorem C89_declared_once : NoDup (map vr_name parse_error_type) /\ NoDup (map vr_name param_error_type) /\ NoDup (map vr_name expand_error_type).
Proof. exact declared_once. Qed.
Print Assumptions C89_declared_once.
(** The variant by which [source] is chosen (C87) is the one printed, with its input first. *)
Theorem C89_variant : forall e, exists l, debug_parse_error debug_span e = DTuple (fst (variant_of e)) l /\
  match snd (variant_of e) with Some i => hd_error l = Some (debug_span i) | None => forall i, ~ In (debug_span i) l end.
Proof. exact variant_printed. Qed.
Print Assumptions C89_variant.
(** What is printed of expressions are the values of [Expression] as src/ast.rs declares it: of these all, and nothing else. *)
Theorem C89_ast : forall I (input : I -> dbg) d,
  value_of input (FNamed (s_ "Expression")) d <-> exists e, d = debug_expression input e.
Proof. exact @expression_values. Qed.
Print Assumptions C89_ast.
(** What is printed of a parsed expression shows how it was written. *)
Theorem C89_shown : forall s e, addressable s -> expression_parse s = RetOk e -> shows (debug_expression debug_span e) s.
Proof. exact parsed_shows. Qed.
Print Assumptions C89_shown.

Definition ascii (c : char) : bool := (32 <=? c) && (c <=? 126).
Definition parsed (s : str) : expression span := match expression_parse s with RetOk e => e | _ => [] end.
(** A line break in a text, a quote, a char that is not printed. *)
Example C89_text : debug_text ascii false (debug_expression debug_span (parsed ([c_ "a"; 34; 955; 10] ++ s_ "{int}"))) =
  s_ "Expression([Text(LocatedSpan { offset: 0, line: 1, fragment: ""a\""\u{3bb}\n"", extra: () }), " ++
  s_ "Parameter(Parameter { input: LocatedSpan { offset: 6, line: 2, fragment: ""int"", extra: () }, id: 0 })])".
Proof. vm_compute. reflexivity. Qed.
Example C89_pretty : debug_text ascii true (DTuple (s_ "Expression") [DList [DTuple (s_ "Parameter") [DStruct (s_ "Parameter") [(s_ "input", DStr (s_ "int")); (s_ "id", DNum 0)]]]; DList []; DTuple (s_ "Tag") []]) =
  s_ "Expression(" ++ [10] ++ s_ "    [" ++ [10] ++ s_ "        Parameter(" ++ [10] ++ s_ "            Parameter {" ++ [10] ++
  s_ "                input: ""int""," ++ [10] ++ s_ "                id: 0," ++ [10] ++ s_ "            }," ++ [10] ++ s_ "        )," ++ [10] ++
  s_ "    ]," ++ [10] ++ s_ "    []," ++ [10] ++ s_ "    Tag," ++ [10] ++ s_ ")".
Proof. vm_compute. reflexivity. Qed.
(** Fragments that look like the end of the field they are in. *)
Example C89_tricky : exists e1 e2, expression_parse (s_ "a"",extra") = RetOk e1 /\ expression_parse (s_ "a") = RetOk e2 /\
  debug_text ascii true (debug_expression debug_span e1) <> debug_text ascii true (debug_expression debug_span e2).
Proof.
  eexists _, _. split; [vm_compute; reflexivity|]. split; [vm_compute; reflexivity|]. intros E.
  apply C89_expression in E. vm_compute in E. discriminate E.
Qed.
(** An [Input] that is a plain [&str]. *)
Example C89_plain : tells (debug_expression DStr).
Proof. apply C89_input; [reflexivity|]. intros i j E. now injection E. Qed.
Example C89_lost : exists e, expression_regex (s_ "{x}") = XExpansion e /\
  debug_error debug_span DUnit (XExpansion e) = Some (DTuple (s_ "Expansion") [DTuple (s_ "NotFound") [debug_span (mkspan 1 1 (s_ "x"))]]).
Proof. eexists. split; vm_compute; reflexivity. Qed.
(** Every kind of node, and every kind of error of nom. *)
Example C89_nodes : debug_text ascii false (debug_expression DStr (map_expression frag (parsed (s_ "a/b(c) (d) {e}f")))) =
  s_ "Expression([Alternation(Alternation([[Text(""a"")], [Text(""b""), Optional(Optional(""c""))]])), Whitespaces("" ""), " ++
  s_ "Optional(Optional(""d"")), Whitespaces("" ""), Parameter(Parameter { input: ""e"", id: 0 }), Text(""f"")])".
Proof. vm_compute. reflexivity. Qed.
Example C89_kinds : map (fun k => debug_text ascii true (debug_kind k))
    [KTag; KOneOf; KAlt; KMany0; KMany1; KSeparatedList; KTakeWhile1; KVerify; KEscaped] =
  map s_ ["Tag"; "OneOf"; "Alt"; "Many0"; "Many1"; "SeparatedList"; "TakeWhile1"; "Verify"; "Escaped"]%string.
Proof. vm_compute. reflexivity. Qed.
Example C89_bare : bare Outside_string (debug_text ascii true (debug_expression debug_span (parsed (s_ "a, ""b\{")))) =
  s_ "Expression([Text(LocatedSpan{offset:0line:1fragment:""a,""extra:()})Whitespaces(LocatedSpan{offset:2line:1fragment:"" ""extra:()})" ++
  s_ "Text(LocatedSpan{offset:3line:1fragment:""\""b\\{""extra:()})])".
Proof. vm_compute. reflexivity. Qed.
(** A value that is none: an [Alternative] in place of a [SingleExpression]. *)
Example C89_no_value : ~ value_of DStr (FNamed (s_ "Expression")) (DTuple (s_ "Expression") [DList [DTuple (s_ "Alternative") [DStr []]]]).
Proof. intros H. apply C89_ast in H. destruct H as [[|[] [|]] E]; discriminate E. Qed.
Example C89_shown_case : exists e, expression_parse (s_ "a/b(c) (d) {e}f{g}") = RetOk e /\ List.length e = 7%nat /\
  shows (debug_expression debug_span e) (s_ "a/b(c) (d) {e}f{g}").
Proof. eexists. split; [vm_compute; reflexivity|]. split; [reflexivity|]. apply C89_shown; vm_compute; easy. Qed.
