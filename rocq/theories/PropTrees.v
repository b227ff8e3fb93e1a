(** Property C74 (trees built by hand). Statements only. The fields of the AST and the traits that expand it are public,
    so a tree need not come from the parser: its texts may hold lone backslashes or reserved chars, optionals may be empty,
    alternations may have no branch or one, ids may be any numbers. [expand_expression text e] is [e.into_regex_char_iter()],
    [collect_result] the collecting into a [Result<String, _>], [text] the chars of the input type. *)
From Verif Require Import ProofTrees PropParams.

(** * C74: any tree expands to the first error, or to a regex that means what the tree means. *)
Theorem C74_error : forall I (text : I -> str) e er,
  collect_result (expand_expression text e) = inr er <->
  exists e1 p e2, e = e1 ++ ExParameter p :: e2 /\ Forall (fun q => built_in (text (par_input q))) (parameters e1) /\
    ~ built_in (text (par_input p)) /\ er = NotFound (par_input p).
Proof. exact @tree_unknown. Qed.
(** The text is a regex unless two [{string}] parameters have the same id. *)
Theorem C74_compiles : forall I (text : I -> str) e t,
  collect_result (expand_expression text e) = inl t ->
  (exists r, regex_new t = Done r) /\ NoDup (string_ids text e) \/
  regex_new t = Invalid /\ ~ NoDup (string_ids text e).
Proof. exact @tree_compiles. Qed.
Theorem C74_meaning : forall I (text : I -> str) e t r,
  collect_result (expand_expression text e) = inl t -> regex_new t = Done r ->
  (exists l, Forall2 (parameter_groups text) (parameters e) l /\ groups r = List.concat l) /\
  forall digit space word pre m post c, rm digit space word r pre m post c <->
    pre = [] /\ post = [] /\ means text (fun p => typed digit space (text (par_input p))) e m c.
Proof. exact @tree_means. Qed.
(** The same with a provider. *)
Theorem C74_custom_error : forall I (text : I -> str) digits spaces words to_string get e er, er <> Unmodelled ->
  collect_result (expand_expression_custom text digits spaces words to_string get e) = inr er <->
  exists e1 p e2, e = e1 ++ ExParameter p :: e2 /\ Forall (custom_checked text get) (parameters e1) /\
    match get (par_input p) with
    | None => ~ built_in (text (par_input p)) /\ er = NotFound (par_input p)
    | Some v => In (c_ "(") v /\ regex_new v = Invalid /\ er = RenameRegexGroup (par_input p) v
    end.
Proof. exact @tree_custom_fault. Qed.
Theorem C74_custom_meaning : forall I (text : I -> str) digits spaces words to_string get,
  tables_ok digits spaces words -> prints_meaning to_string ->
  forall e, Forall (custom_valid text get (tame digits spaces words)) (parameters e) ->
  exists t l, collect_result (expand_expression_custom text digits spaces words to_string get e) = inl t /\
    Forall2 (custom_groups text get) (parameters e) l /\
    ((exists r, regex_new t = Done r) /\ NoDup (names (List.concat l)) \/ regex_new t = Invalid /\ ~ NoDup (names (List.concat l))) /\
    forall r, regex_new t = Done r -> groups r = List.concat l /\
      forall pre m post c, Forall scalar m ->
        rm (in_ranges digits) (in_ranges spaces) (in_ranges words) r pre m post c <->
        pre = [] /\ post = [] /\ means_in text (custom_type digits spaces words text get) e [] m [] c.
Proof. exact @tree_custom. Qed.
Print Assumptions C74_error. Print Assumptions C74_compiles. Print Assumptions C74_meaning.
Print Assumptions C74_custom_error. Print Assumptions C74_custom_meaning.
(** A tree that no text has: an alternation without branches, one with a single empty branch, an empty optional, texts with
    reserved chars and a lone backslash, ids out of order. *)
Definition ex_tree (a b : N) : expression str :=
  [ExAlternation []; ExAlternation [[]]; ExOptional (mkOptional []); ExText (s_ "x{\\(\"); ExWhitespaces (s_ "y");
   ExParameter (mkParameter (s_ "string") a); ExAlternation [[AltText (s_ "/")]]; ExParameter (mkParameter (s_ "string") b)].
Example C74_example :
  collect_result (expand_expression (fun t => t) (ex_tree 9 4)) =
    inl (s_ "^(?:)(?:)(?:)?x\{\\\(y(?:""(?P<__9_0>[^""\\]*(?:\\.[^""\\]*)*)""|'(?P<__9_1>[^'\\]*(?:\\.[^'\\]*)*)')(?:/)(?:""(?P<__4_0>[^""\\]*(?:\\.[^""\\]*)*)""|'(?P<__4_1>[^'\\]*(?:\\.[^'\\]*)*)')$") /\
  string_ids (fun t => t) (ex_tree 9 4) = [9; 4] /\ string_ids (fun t => t) (ex_tree 4 4) = [4; 4] /\
  collect_result (expand_expression (fun t => t) (ExParameter (mkParameter (s_ "int") 0) :: ExParameter (mkParameter (s_ "foo}") 0) :: ex_tree 0 0)) =
    inr (NotFound (s_ "foo}")).
Proof. vm_compute. easy. Qed.
Example C74_custom_example : let get := hash_map_get (fun t : str => t) [(s_ "{p}", s_ "(a|b)-(c)")] in
  let e := [ExParameter (mkParameter (s_ "{p}") 5); ExAlternation []; ExParameter (mkParameter (s_ "{p}") 5)] in
  Forall (custom_valid (fun t => t) get (tame ex_digits ex_spaces ex_words)) (parameters e) /\
  match collect_result (expand_expression_custom (fun t => t) ex_digits ex_spaces ex_words (show true) get e) with
  | inl t => regex_new t = Invalid | inr _ => False end /\
  match collect_result (expand_expression_custom (fun t => t) ex_digits ex_spaces ex_words (show true) get (tl e)) with
  | inl t => exists r, regex_new t = Done r | inr _ => False end.
Proof.
  cbv zeta. split; [repeat constructor; (eexists; split; [vm_compute; reflexivity|cbn; auto])|]. split; [vm_compute; reflexivity|].
  vm_compute. eauto.
Qed.
