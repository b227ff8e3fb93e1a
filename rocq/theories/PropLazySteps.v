(** Property C70 (expansion time). Statements only. The functions of LazySteps.v are the iterators of Lazy.v
    with a step counter; what counts as a step is said there. *)
From Verif Require Import ProofLazySteps2 ProofLeastLazy.
Local Open Scope nat_scope.

(** * C70: expanding a parsed expression takes linear time; only matchers with renamed groups take
    quadratic time. *)
(** Counting does not change what is computed. *)
Theorem C70_same : forall (I : Type) (elements : I -> str) digits spaces words to_string,
  (forall s, fst (expression_steps elements s) = expression_next elements s) /\
  (forall s, fst (expression_custom_steps elements digits spaces words to_string s)
             = expression_custom_next elements digits spaces words to_string s).
Proof. exact (fun I el d s w t => conj (expression_same el) (expression_custom_same el d s w t)). Qed.
(** Any tree: [calls] of the outermost [next] (C55), the nodes of the tree, and the texts that are copied,
    for each of which [OwnedChars] starts over at every char. *)
Theorem C70_built_in : forall (I : Type) (elements : I -> str) e, exists fuel0 n,
  (forall fuel, fuel0 <= fuel ->
     try_collect_steps (expression_steps elements) fuel (expression_into e) = Some (collect_result (expand_expression elements e), n)) /\
  n <= 416 * calls (expand_expression elements e) + 275 * node_count e + rereads (copied_builtin elements) e /\
  ((exists t, collect_result (expand_expression elements e) = inl t) -> rereads (copied_builtin elements) e <= n).
Proof. exact @builtin_both. Qed.
Theorem C70_custom : forall (I : Type) (elements : I -> str) digits spaces words to_string get e, exists fuel0 n,
  (forall fuel, fuel0 <= fuel ->
     try_collect_steps (expression_custom_steps elements digits spaces words to_string) fuel (expression_custom_into get e)
     = Some (collect_result (expand_expression_custom elements digits spaces words to_string get e), n)) /\
  n <= 421 * calls (expand_expression_custom elements digits spaces words to_string get e) + 279 * node_count e
       + rereads (copied elements digits spaces words to_string get) e /\
  ((exists t, collect_result (expand_expression_custom elements digits spaces words to_string get e) = inl t) ->
   rereads (copied elements digits spaces words to_string get) e <= n).
Proof. exact @custom_both. Qed.
(** At least a step for each call. *)
Theorem C70_least : forall (I : Type) (elements : I -> str) digits spaces words to_string get e,
  (forall fuel r n, try_collect_steps (expression_steps elements) fuel (expression_into e) = Some (r, n) -> calls (expand_expression elements e) <= n) /\
  (forall fuel r n, try_collect_steps (expression_custom_steps elements digits spaces words to_string) fuel (expression_custom_into get e) = Some (r, n) ->
     calls (expand_expression_custom elements digits spaces words to_string get e) <= n).
Proof. exact @expansion_least. Qed.
Print Assumptions C70_least.
(** A parsed expression without custom parameters, whatever the outcome: linear in the input. *)
Theorem C70_linear : forall s e, addressable s -> expression_parse s = RetOk e -> exists fuel0 n,
  (forall fuel, fuel0 <= fuel ->
     try_collect_steps (expression_steps frag) fuel (expression_into e) = Some (collect_result (expand_expression frag e), n)) /\
  n <= 8 * 1000 * (List.length s + 1).
Proof. exact parsed_linear. Qed.
(** One parameter with renamed groups: quadratic in the length of the outcome. *)
Theorem C70_quadratic : forall (I : Type) (elements : I -> str) digits spaces words to_string get p v c,
  get (par_input p) = Some v -> copied elements digits spaces words to_string get p = Some c -> exists fuel0 n,
  (forall fuel, fuel0 <= fuel ->
     try_collect_steps (expression_custom_steps elements digits spaces words to_string) fuel (expression_custom_into get [ExParameter p])
     = Some (inl (s_ "^(?:" ++ c ++ s_ ")$"), n)) /\
  (List.length c + 1) * (List.length c + 2) <= 2 * n.
Proof. exact @renamed_quadratic. Qed.
Print Assumptions C70_same. Print Assumptions C70_built_in. Print Assumptions C70_custom. Print Assumptions C70_linear.
Print Assumptions C70_quadratic.
(** Counts: words, alternations, [{string}]; and the matcher [(aaa...)] with 16, 64, ... letters. *)
Definition ex_steps (e : expression str) : N :=
  match try_collect_steps (expression_steps (fun t : str => t)) 1000 (expression_into e) with
  | Some (_, n) => N.of_nat n | None => 0 end.
Definition ex_custom_steps (v : str) : N :=
  match try_collect_steps (expression_custom_steps (fun t : str => t) [] [] [] (show true)) 1000
          (expression_custom_into (fun _ => Some v) [ExParameter (mkParameter (s_ "x") 0)]) with
  | Some (_, n) => N.of_nat n | None => 0 end.
Example C70_counts :
  map (fun k => ex_steps (repeat (ExText (s_ "word.")) k)) [1; 2; 4; 8] = [83; 155; 299; 587]%N /\
  map (fun k => ex_steps [ExAlternation (repeat [AltText (s_ "a"); AltOptional (mkOptional (s_ "b"))] k)]) [2; 4; 8; 16]
    = [356; 668; 1292; 2540]%N /\
  map (fun k => ex_steps (repeat (ExParameter (mkParameter (s_ "string") 0)) k)) [1; 2; 4] = [3725; 7439; 14867]%N /\
  map (fun k => ex_custom_steps (s_ "(" ++ repeat (c_ "a") k ++ s_ ")")) [16; 64; 256] = [939; 4179; 40179]%N.
Proof. vm_compute. easy. Qed.
