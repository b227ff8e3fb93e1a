(** Properties C26 and C30 (second halves), C31-C37: custom parameters. Statements only; every proof
    is a lemma of the proof layer.
    [regex_with_parameters digits spaces words to_string get] is [Expression::regex_with_parameters]
    with the provider [get]; [digits], [spaces], [words] are the Unicode tables and [to_string] the
    [Display] of regex-syntax's [Hir]. *)
From Coq Require Import Permutation.
From Verif Require Import ProofParams2.

(** Tables and providers for the examples. *)
Definition ex_digits : ranges := [(48, 57)].
Definition ex_spaces : ranges := [(9, 13); (32, 32)].
Definition ex_words : ranges := [(48, 57); (65, 90); (95, 95); (97, 122)].
Definition ex_get : provider span := hash_map_get frag
  [(s_ "color", s_ "red|blue|[a-z]+"); (s_ "pair", s_ "(\d+)-(?P<n>x|(y))"); (s_ "int", s_ "0x[0-9a-f]+"); (s_ "bad", s_ "(a"); (s_ "rep", s_ "(a)(b)*")].
Example ex_tables_ok : tables_ok ex_digits ex_spaces ex_words.
Proof. repeat constructor; cbn; lia. Qed.
Definition ex_whole := regex_with_parameters ex_digits ex_spaces ex_words (show true) ex_get.
Definition ex_parameters (s : str) : list (parameter span) :=
  match expression_parse s with RetOk e => parameters e | _ => [] end.

(** * C31: a provider that knows none of the names changes nothing. *)
Theorem C31_built_ins : forall digits spaces words to_string get s,
  (forall e p, expression_parse s = RetOk e -> In p (parameters e) -> get (par_input p) = None) ->
  regex_with_parameters digits spaces words to_string get s = expression_regex s.
Proof. exact whole_none. Qed.
Print Assumptions C31_built_ins.
Example C31_example :
  map (fun p => ex_get (par_input p)) (ex_parameters (s_ "{float} {string} a/b {zz}")) = [None; None; None] /\
  ex_whole (s_ "{float} {string} a/b") = expression_regex (s_ "{float} {string} a/b").
Proof. vm_compute. easy. Qed.

(** * C32: the provider comes first, else the built-in types; only the names in use matter.
    [custom_type]: what the provider's matcher matches, or the built-in type. *)
Theorem C32_precedence : forall digits spaces words to_string get,
  tables_ok digits spaces words -> prints_meaning to_string ->
  forall s e, expression_parse s = RetOk e ->
  Forall (custom_valid frag get (tame digits spaces words)) (parameters e) ->
  exists l, Forall2 (custom_groups frag get) (parameters e) l /\
    (NoDup (flat_map (fun n => match n with Some n => [n] | None => [] end) (List.concat l)) /\
       (exists t r, regex_with_parameters digits spaces words to_string get s = XOk t r) \/
     ~ NoDup (flat_map (fun n => match n with Some n => [n] | None => [] end) (List.concat l)) /\
       regex_with_parameters digits spaces words to_string get s = XRegex) /\
    forall t r, regex_with_parameters digits spaces words to_string get s = XOk t r ->
      groups r = List.concat l /\
      forall pre m post c, Forall scalar m ->
        rm (in_ranges digits) (in_ranges spaces) (in_ranges words) r pre m post c <->
        pre = [] /\ post = [] /\ means_in frag (custom_type digits spaces words frag get) e [] m [] c.
Proof. exact whole_means. Qed.
Theorem C32_only_used : forall digits spaces words to_string get get' s,
  (forall e p, expression_parse s = RetOk e -> In p (parameters e) -> get (par_input p) = get' (par_input p)) ->
  regex_with_parameters digits spaces words to_string get s = regex_with_parameters digits spaces words to_string get' s.
Proof. exact whole_only_used. Qed.
Print Assumptions C32_precedence. Print Assumptions C32_only_used.
Example C32_example :
  Forall (custom_valid frag ex_get (tame ex_digits ex_spaces ex_words)) (ex_parameters (s_ "{int} {rep} {word}")) /\
  match ex_whole (s_ "{int} {rep} {word}") with
  | XOk t r => t = s_ "^(0x[0-9a-f]+) (?:(?:(?P<__1_0>a)(b)*)) ([^\s]+)$" /\ groups r = [None; Some (s_ "__1_0"); None; None]
  | _ => False end.
Proof.
  split; [|vm_compute; easy].
  change (ex_parameters (s_ "{int} {rep} {word}")) with
    [mkParameter (mkspan 1 1 (s_ "int")) 0; mkParameter (mkspan 7 1 (s_ "rep")) 1; mkParameter (mkspan 13 1 (s_ "word")) 2].
  constructor; [|constructor; [|constructor; [|constructor]]].
  - eexists. split; [vm_compute; reflexivity|]. cbn. auto.
  - eexists. split; [vm_compute; reflexivity|]. cbn. split; [exact I|]. split; [exact I|]. right. split; [easy|].
    exists [], (s_ "b"), [], [Some (s_ "b")]. split; [easy|]. split; [constructor; [split; vm_compute; intuition discriminate|constructor]|]. repeat constructor.
  - cbn. auto.
Qed.

(** * C33: the [HashMap] provider. *)
Theorem C33_hash_map : forall I (text : I -> str) m i, NoDup (map fst m) ->
  (forall v, hash_map_get text m i = Some v <-> In (text i, v) m) /\
  (hash_map_get text m i = None <-> ~ In (text i) (map fst m)) /\
  forall m', Permutation m m' -> hash_map_get text m' i = hash_map_get text m i.
Proof. exact hash_map_spec. Qed.
Print Assumptions C33_hash_map.
Example C33_example : NoDup (map fst [(s_ "a", s_ "1"); (s_ "b", s_ "2")]) /\
  hash_map_get (fun x => x) [(s_ "a", s_ "1"); (s_ "b", s_ "2")] (s_ "b") = Some (s_ "2") /\
  hash_map_get (fun x => x) [(s_ "a", s_ "1"); (s_ "b", s_ "2")] (s_ "B") = None.
Proof. split; [repeat constructor; cbn; intuition discriminate|]. vm_compute. easy. Qed.

(** * C34: matchers without a parenthesis. *)
Theorem C34_plain : forall digits spaces words to_string get s e,
  addressable s -> expression_parse s = RetOk e ->
  Forall (fun p => custom_valid frag get (fun _ => True) p /\ (forall v, get (par_input p) = Some v -> ~ In (c_ "(") v)) (parameters e) ->
  exists t r l, regex_with_parameters digits spaces words to_string get s = XOk t r /\
    Forall2 (fun p l => match get (par_input p) with None => parameter_groups frag p l | Some _ => l = [None] end) (parameters e) l /\
    groups r = List.concat l /\
    forall pre m post c, rm (in_ranges digits) (in_ranges spaces) (in_ranges words) r pre m post c <->
      pre = [] /\ post = [] /\ means_in frag (custom_type digits spaces words frag get) e [] m [] c.
Proof. exact whole_plain. Qed.
Print Assumptions C34_plain.
Example C34_example :
  Forall (fun p => custom_valid frag ex_get (fun _ => True) p /\ (forall v, ex_get (par_input p) = Some v -> ~ In (c_ "(") v))
    (ex_parameters (s_ "{color} car(s) {int} {string}")) /\
  match ex_whole (s_ "{color} car(s) {int} {string}") with
  | XOk _ r => groups r = [None; None; Some (s_ "__2_0"); Some (s_ "__2_1")] | _ => False end.
Proof.
  split; [|vm_compute; reflexivity].
  change (ex_parameters (s_ "{color} car(s) {int} {string}")) with
    [mkParameter (mkspan 1 1 (s_ "color")) 0; mkParameter (mkspan 16 1 (s_ "int")) 1; mkParameter (mkspan 22 1 (s_ "string")) 2].
  constructor; [|constructor; [|constructor; [|constructor]]].
  - split; [eexists; split; [vm_compute; reflexivity|exact I]|]. intros v H. vm_compute in H. injection H as <-. cbn. intuition discriminate.
  - split; [eexists; split; [vm_compute; reflexivity|exact I]|]. intros v H. vm_compute in H. injection H as <-. cbn. intuition discriminate.
  - split; [cbn; auto|]. intros v H. discriminate H.
Qed.

(** * C35: matchers with groups. True where no group stands below a repetition ([flat]); a printer
    for [Hir]s that keeps the meaning is assumed, and [show true] is one. *)
Theorem C35_renamed_partial : forall digits spaces words to_string get,
  tables_ok digits spaces words -> prints_meaning to_string ->
  forall s e, addressable s -> expression_parse s = RetOk e ->
  Forall (custom_valid frag get flat) (parameters e) ->
  exists t r l, regex_with_parameters digits spaces words to_string get s = XOk t r /\
    Forall2 (custom_groups frag get) (parameters e) l /\ groups r = List.concat l /\ NoDup (group_names r) /\
    forall pre m post c, Forall scalar m ->
      rm (in_ranges digits) (in_ranges spaces) (in_ranges words) r pre m post c <->
      pre = [] /\ post = [] /\ means_in frag (custom_type digits spaces words frag get) e [] m [] c.
Proof. exact whole_renamed. Qed.
Theorem C35_printer : prints_meaning (show true).
Proof. exact show_true_faithful. Qed.
(** The printer as we remember it puts no parentheses around a repetition below a repetition. It is
    right for [Hir]s without such, and wrong for some others. *)
Theorem C35_display_partial : forall digits spaces words get s e,
  tables_ok digits spaces words -> addressable s -> expression_parse s = RetOk e ->
  Forall (fun p => custom_valid frag get flat p /\
      forall t r, get (par_input p) = Some t -> regex_new t = Done r ->
        no_nested (rename_capture_groups (translate digits spaces words r) (par_id p)) = true) (parameters e) ->
  exists t r l, regex_with_parameters digits spaces words (show false) get s = XOk t r /\
    Forall2 (custom_groups frag get) (parameters e) l /\ groups r = List.concat l /\ NoDup (group_names r) /\
    forall pre m post c, Forall scalar m ->
      rm (in_ranges digits) (in_ranges spaces) (in_ranges words) r pre m post c <->
      pre = [] /\ post = [] /\ means_in frag (custom_type digits spaces words frag get) e [] m [] c.
Proof. exact whole_display. Qed.
(** [(x)(?:a+)?] for [p]: the regex of [{p}] does not match [x]. *)
Theorem C35_display_refuted : exists get s e t r, forall digits spaces words,
  expression_parse s = RetOk e /\ Forall (custom_valid frag get flat) (parameters e) /\
  regex_with_parameters digits spaces words (show false) get s = XOk t r /\
  means_in frag (custom_type digits spaces words frag get) e [] (s_ "x") [] [Some (s_ "x")] /\
  ~ is_match (in_ranges digits) (in_ranges spaces) (in_ranges words) r (s_ "x").
Proof. exact display_lost. Qed.
(** [(a)*] for [p]: [{p}] has an extra group, and nothing is renamed. *)
Theorem C35_refuted : exists get v r0 s t r, forall digits spaces words to_string,
  get (mkspan 1 1 (s_ "p")) = Some v /\ regex_new v = Done r0 /\ groups r0 = [None] /\
  s = s_ "{p}" /\ regex_with_parameters digits spaces words to_string get s = XOk t r /\ groups r = [None; None].
Proof. exact repeated_group_missed. Qed.
Print Assumptions C35_renamed_partial. Print Assumptions C35_printer. Print Assumptions C35_display_partial.
Print Assumptions C35_display_refuted. Print Assumptions C35_refuted.
Example C35_example : match ex_whole (s_ "{pair} {pair}") with
  | XOk t r => groups r = [Some (s_ "__0_0"); Some (s_ "__0_1"); Some (s_ "__0_2"); Some (s_ "__1_0"); Some (s_ "__1_1"); Some (s_ "__1_2")]
  | _ => False end.
Proof. vm_compute. reflexivity. Qed.
Example C35_example_valid : Forall (custom_valid frag ex_get flat) (ex_parameters (s_ "{pair} {pair}")) /\
  (List.length (ex_parameters (s_ "{pair} {pair}")) = 2)%nat.
Proof.
  split; [|vm_compute; reflexivity].
  change (ex_parameters (s_ "{pair} {pair}")) with [mkParameter (mkspan 1 1 (s_ "pair")) 0; mkParameter (mkspan 8 1 (s_ "pair")) 1].
  repeat constructor; (eexists; split; [vm_compute; reflexivity|cbn; auto]).
Qed.

(** * C36: groups are detected and renamed. True of the groups that no repetition stands around. *)
Theorem C36_detected_partial : forall digits spaces words t r,
  tables_ok digits spaces words -> regex_new t = Done r -> tame digits spaces words r ->
  has_capture_groups (translate digits spaces words r) = has_outer r.
Proof. exact outer_groups_detected. Qed.
(** [(?P<n>a)*] for [p]: usable once, not twice. *)
Theorem C36_refuted : exists get v r0, forall digits spaces words to_string,
  (forall i, frag i = s_ "p" -> get i = Some v) /\ regex_new v = Done r0 /\ groups r0 = [Some (s_ "n")] /\
  (exists t r, regex_with_parameters digits spaces words to_string get (s_ "{p}") = XOk t r) /\
  regex_with_parameters digits spaces words to_string get (s_ "{p} {p}") = XRegex.
Proof. exact repeated_name_twice. Qed.
Print Assumptions C36_detected_partial. Print Assumptions C36_refuted.
Example C36_example : exists r, regex_new (s_ "x(a)*") = Done r /\ tame ex_digits ex_spaces ex_words r /\ groups r = [None] /\ has_outer r = false.
Proof.
  eexists. split; [vm_compute; reflexivity|]. split; [|easy]. cbn. split; [exact I|]. split; [exact I|]. right. split; [easy|].
  exists [], (s_ "a"), [], [Some (s_ "a")]. split; [easy|]. split; [constructor; [split; vm_compute; intuition discriminate|constructor]|repeat constructor].
Qed.

(** * C37: invalid matchers are rejected. True of matchers with an open parenthesis. *)
Theorem C37_rejected_partial : forall digits spaces words to_string get s e p v,
  expression_parse s = RetOk e -> In p (parameters e) -> get (par_input p) = Some v ->
  In (c_ "(") v -> regex_new v = Invalid ->
  forall t r, regex_with_parameters digits spaces words to_string get s <> XOk t r.
Proof. exact whole_rejects. Qed.
(** [a)|b\] for [p]. *)
Theorem C37_refuted : exists get v s t r, forall digits spaces words to_string,
  get (mkspan 1 1 (s_ "p")) = Some v /\ regex_new v = Invalid /\ s = s_ "{p}" /\
  regex_with_parameters digits spaces words to_string get s = XOk t r.
Proof. exact invalid_accepted. Qed.
Print Assumptions C37_rejected_partial. Print Assumptions C37_refuted.
Example C37_example : ex_get (mkspan 1 1 (s_ "bad")) = Some (s_ "(a") /\ regex_new (s_ "(a") = Invalid.
Proof. vm_compute. easy. Qed.

(** * C26, with custom parameters. *)
Theorem C26_custom_partial : forall digits spaces words to_string get s e t r,
  expression_parse s = RetOk e ->
  Forall (fun p => custom_valid frag get (fun _ => True) p /\
      forall v r, get (par_input p) = Some v -> regex_new v = Done r ->
        exists r', parse_syntax (to_string (rename_capture_groups (translate digits spaces words r) (par_id p))) = Done r') (parameters e) ->
  regex_with_parameters digits spaces words to_string get s = XOk t r ->
  forall pre m post c, rm (in_ranges digits) (in_ranges spaces) (in_ranges words) r pre m post c -> pre = [] /\ post = [].
Proof. exact whole_anchored. Qed.
(** [a)|b\] for [p]: the regex of [{p}] is [^(a)|b\)$]. *)
Theorem C26_custom_refuted : exists get s t r, forall digits spaces words to_string,
  regex_with_parameters digits spaces words to_string get s = XOk t r /\
  exists m post c, rm (in_ranges digits) (in_ranges spaces) (in_ranges words) r [] m post c /\ post <> [].
Proof. exact injection_unanchored. Qed.
Print Assumptions C26_custom_partial. Print Assumptions C26_custom_refuted.
Example C26_custom_example :
  Forall (fun p => exists v r r', ex_get (par_input p) = Some v /\ regex_new v = Done r /\
      parse_syntax (show true (rename_capture_groups (translate ex_digits ex_spaces ex_words r) (par_id p))) = Done r')
    (ex_parameters (s_ "{color}x{pair}")).
Proof.
  change (ex_parameters (s_ "{color}x{pair}")) with [mkParameter (mkspan 1 1 (s_ "color")) 0; mkParameter (mkspan 9 1 (s_ "pair")) 1].
  repeat constructor; (eexists _, _, _; repeat (split; [vm_compute; reflexivity|]); vm_compute; reflexivity).
Qed.

(** * C30, with custom parameters: the first parameter that is neither known nor valid is reported.
    (Matchers without a parenthesis are not looked at: [custom_checked].) *)
Theorem C30_custom : forall digits spaces words to_string get s er,
  regex_with_parameters digits spaces words to_string get s = XExpansion er <->
  exists e1 p e2, expression_parse s = RetOk (e1 ++ ExParameter p :: e2) /\
    Forall (custom_checked frag get) (parameters e1) /\
    match get (par_input p) with
    | None => ~ built_in (frag (par_input p)) /\ er = NotFound (par_input p)
    | Some v => In (c_ "(") v /\ regex_new v = Invalid /\ er = RenameRegexGroup (par_input p) v
    end.
Proof. exact whole_errors. Qed.
Print Assumptions C30_custom.
Example C30_custom_example :
  ex_whole (s_ "{color} {pair} {zz} {bad}") = XExpansion (NotFound (mkspan 16 1 (s_ "zz"))) /\
  ex_whole (s_ "{color} {bad} {zz}") = XExpansion (RenameRegexGroup (mkspan 9 1 (s_ "bad")) (s_ "(a")).
Proof. vm_compute. easy. Qed.
