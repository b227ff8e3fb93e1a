(** Properties C21, C22 (second half), C25-C30, C38-C42, C44: the regex of an expression over the
    built-in parameters. Statements only; every proof is a lemma of the proof layer.
    [expression_regex] is [Expression::regex] (the text given to [Regex::new], and the regex it
    denotes). [rm r pre m post c]: in the subject [pre ++ m ++ post], [r] can match [m] with captures
    [c]. [digit], [space], [word] are the Unicode tables of [\d], [\s], [\w], left arbitrary. *)
From Verif Require Import ProofExpand4.

(** * C21: any literal text can be written by escaping the reserved chars. *)
Theorem C21_literal : forall t, t <> [] -> addressable (escaped t) ->
  expression_parse (escaped t) = RetOk [ExText (mkspan 0 1 (escaped t))] /\
  exists u r, expression_regex (escaped t) = XOk u r /\
    forall digit space word s, is_match digit space word r s <-> s = t.
Proof. exact literal_text. Qed.
Print Assumptions C21_literal.
Example C21_example : addressable (escaped (s_ "a {b}/(c) \ $.")) /\
  escaped (s_ "a {b}/(c) \ $.") = s_ "a\ \{b\}\/\(c\)\ \\\ $.".
Proof. vm_compute. easy. Qed.

(** * C22: what [EscapeForRegex] yields is a regex for exactly one string. *)
Theorem C22_matches_literal : forall t, exists r,
  regex_new (flat_map quote (unescape t)) = Done r /\
  forall digit space word p m q c, rm digit space word r p m q c <-> m = unescape t /\ c = [].
Proof. exact escape_regex. Qed.
Print Assumptions C22_matches_literal.
Example C22_matches_example :
  unescape (s_ "\(a.b\)\") = s_ "(a.b)" /\ flat_map quote (s_ "(a.b)") = s_ "\(a\.b\)".
Proof. vm_compute. easy. Qed.

(** * C25: the regex matches exactly what the expression means. *)
Theorem C25_matches_meaning : forall s e t r, addressable s ->
  expression_parse s = RetOk e -> expression_regex s = XOk t r ->
  forall digit space word subject,
    is_match digit space word r subject <->
    exists v, means frag (fun p => typed digit space (frag (par_input p))) e subject v.
Proof. exact regex_matches_meaning. Qed.
Print Assumptions C25_matches_meaning.
Definition gives_regex (s : str) : bool := match expression_regex s with XOk _ _ => true | _ => false end.
Example C25_example : addressable (s_ "I have {int} cucumber(s)/\(gherkin\) in {string}") /\
  gives_regex (s_ "I have {int} cucumber(s)/\(gherkin\) in {string}") = true.
Proof. vm_compute. easy. Qed.

(** * C26: matching is anchored.
    For built-in parameters; C26_custom_refuted (PropParams.v) shows that custom ones can break it. *)
Theorem C26_anchored_partial : forall s t r, addressable s -> expression_regex s = XOk t r ->
  forall digit space word pre m post c, rm digit space word r pre m post c -> pre = [] /\ post = [].
Proof. exact regex_anchored. Qed.
Print Assumptions C26_anchored_partial.
Example C26_example : gives_regex (s_ "{} {word} a/x") = true /\ gives_regex [] = true.
Proof. vm_compute. easy. Qed.

(** * C27: expansion always compiles. *)
Theorem C27_compiles : forall s, addressable s ->
  (exists t r, expression_regex s = XOk t r /\ regex_new t = Done r /\ NoDup (group_names r)) <->
  exists e, expression_parse s = RetOk e /\ Forall (fun p => built_in (frag (par_input p))) (parameters e).
Proof. exact regex_compiles. Qed.
Theorem C27_outcomes : forall s, addressable s ->
  (exists er, expression_parse s = RetErr er /\ expression_regex s = XParsing er) \/
  (exists t r, expression_regex s = XOk t r) \/
  (exists i, expression_regex s = XExpansion (NotFound i)).
Proof. exact regex_outcomes. Qed.
Print Assumptions C27_compiles. Print Assumptions C27_outcomes.
Example C27_example : gives_regex (s_ "{string} and {string} and m(]|^)/[a-b {float}") = true.
Proof. vm_compute. easy. Qed.

(** * C28: the groups mirror the parameters. *)
Theorem C28_groups : forall s e t r, addressable s ->
  expression_parse s = RetOk e -> expression_regex s = XOk t r ->
  exists l, Forall2 (parameter_groups frag) (parameters e) l /\ groups r = List.concat l.
Proof. exact regex_groups. Qed.
Print Assumptions C28_groups.
Example C28_example : match expression_regex (s_ "(a) {int} x/y {string} {}") with
  | XOk _ r => groups r = [None; Some (s_ "__1_0"); Some (s_ "__1_1"); None]
  | _ => False end.
Proof. vm_compute. reflexivity. Qed.

(** * C29: the captured values. *)
Theorem C29_captures : forall s e t r, addressable s ->
  expression_parse s = RetOk e -> expression_regex s = XOk t r ->
  forall digit space word pre m post c,
    rm digit space word r pre m post c <->
    pre = [] /\ post = [] /\ means frag (fun p => typed digit space (frag (par_input p))) e m c.
Proof. exact regex_captures. Qed.
Print Assumptions C29_captures.
Example C29_example : forall e, expression_parse (s_ "a{int} {}") = RetOk e ->
  means frag (fun p => typed (fun c => (48 <=? c) && (c <=? 57)) (fun c => c =? 32) (frag (par_input p)))
    e (s_ "a-42 xy") [Some (s_ "-42"); Some (s_ "xy")].
Proof.
  intros e H. vm_compute in H. injection H as <-.
  exists [(s_ "a", []); (s_ "-42", [Some (s_ "-42")]); (s_ " ", []); (s_ "xy", [Some (s_ "xy")])].
  repeat split; repeat constructor.
  - exists (s_ "-"), (s_ "42"). repeat split; [right; left; reflexivity|easy|repeat constructor].
  - cbn. intuition discriminate.
Qed.

(** * C30: the leftmost unknown parameter is reported.
    Here for [Expression::regex]; C30_custom (PropParams.v) for [regex_with_parameters]. *)
Theorem C30_not_found : forall s i, addressable s ->
  expression_regex s = XExpansion (NotFound i) <->
  exists e1 p e2, expression_parse s = RetOk (e1 ++ ExParameter p :: e2) /\ i = par_input p /\
    Forall (fun q => built_in (frag (par_input q))) (parameters e1) /\ ~ built_in (frag (par_input p)).
Proof. exact regex_not_found. Qed.
Print Assumptions C30_not_found.
Example C30_example :
  expression_regex (s_ "{int} {foo} {bar}") = XExpansion (NotFound (mkspan 7 1 (s_ "foo"))).
Proof. vm_compute. reflexivity. Qed.

(** * C38-C42: the built-in parameters. *)
Theorem C38_int : exists u r, expression_regex (s_ "{int}") = XOk u r /\
  forall digit space word s, is_match digit space word r s <-> int_string digit s.
Proof. exact int_regex. Qed.
Print Assumptions C38_int.
Example C38_example : int_string (fun c => (48 <=? c) && (c <=? 57)) (s_ "-07").
Proof. exists (s_ "-"), (s_ "07"). repeat split; [right; now left|easy|repeat constructor]. Qed.

Theorem C39_float : exists u r, expression_regex (s_ "{float}") = XOk u r /\
  forall digit space word s, is_match digit space word r s <-> float_string digit s.
Proof. exact float_regex_means. Qed.
(** On strings where [\d] is [0-9] this is the grammar of [f64::from_str], less the spellings of
    infinity and not-a-number other than [inf] and [NaN]. *)
Theorem C39_f64 : forall digit p, (forall c, In c p -> digit c = true <-> ascii_digit c) ->
  f64_string p <-> float_string digit p \/ f64_special p.
Proof. exact float_f64. Qed.
Print Assumptions C39_float. Print Assumptions C39_f64.
Example C39_example : float_string (fun c => (48 <=? c) && (c <=? 57)) (s_ "-.5E+3") /\ f64_special (s_ "+Infinity").
Proof.
  split.
  - exists (s_ "-"), (s_ ".5E+3"). repeat split; [right; right; now left|]. right; right.
    exists (s_ ".5"), (s_ "E+3"). repeat split.
    + right. exists [], (s_ "5"). repeat split; [easy|repeat constructor].
    + right. exists (c_ "E"), (s_ "+3"). repeat split; [right; now left|].
      exists (s_ "+"), (s_ "3"). repeat split; [right; now left|easy|repeat constructor].
  - exists (s_ "+"), (s_ "Infinity"). repeat split; [right; now left|easy|easy|]. right; left. reflexivity.
Qed.

Theorem C40_word : exists u r, expression_regex (s_ "{word}") = XOk u r /\
  forall digit space word s, is_match digit space word r s <-> word_string space s.
Proof. exact word_regex_means. Qed.
Print Assumptions C40_word.
Example C40_example : word_string (fun c => c =? 32) (s_ "x{y}") /\ ~ word_string (fun c => c =? 32) (s_ "x y").
Proof.
  split; [split; [easy|repeat constructor]|]. intros [_ H]. inversion_clear H. inversion_clear H1. discriminate.
Qed.

Theorem C41_string : exists u r, expression_regex (s_ "{string}") = XOk u r /\
  forall digit space word s c, rm digit space word r [] s [] c <->
    (exists b, quoted quote2 b /\ s = s_ """" ++ b ++ s_ """" /\ c = [Some b; None]) \/
    (exists b, quoted quote1 b /\ s = s_ "'" ++ b ++ s_ "'" /\ c = [None; Some b]).
Proof. exact string_regex_means. Qed.
Print Assumptions C41_string.
Example C41_example : quoted quote2 (s_ "a\""b'\\").
Proof.
  change (s_ "a\""b'\\") with [97; 92; 34; 98; 39; 92; 92].
  repeat first [apply quoted_nil | apply quoted_escape; [easy|] | apply quoted_char; [easy|easy|]].
Qed.

Theorem C42_anonymous : exists u r, expression_regex (s_ "{}") = XOk u r /\
  forall digit space word s, is_match digit space word r s <-> ~ In newline s.
Proof. exact anonymous_regex_means. Qed.
Print Assumptions C42_anonymous.
Example C42_example : ~ In newline (s_ "any thing") /\ In newline (s_ "any" ++ [10]).
Proof. cbn. intuition discriminate. Qed.

(** * C44: the regex is at most linear in the size of the expression. *)
Theorem C44_size : forall s t r, addressable s -> expression_regex s = XOk t r ->
  (List.length t <= 15 * List.length s + 2)%nat.
Proof. exact regex_size. Qed.
Print Assumptions C44_size.
Example C44_example : match expression_regex (s_ "{string}{string}") with
  | XOk t _ => (List.length t = 152)%nat | _ => False end.
Proof. vm_compute. reflexivity. Qed.
