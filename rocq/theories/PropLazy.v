(** Properties C55 (lazy expansion) and C56 (its cost). Statements only.
    [iterates next s l]: from state [s] the iterator yields [l], then [None] forever. *)
From Verif Require Import ProofLazy.

(** * C55: the iterators the code builds yield the characters of Expand.v and Params.v, then nothing
    forever. *)
Theorem C55_lazy : forall (I : Type) (elements : I -> str),
  (forall o, iterates optional_next (optional_into elements o) (expand_optional elements o)) /\
  (forall a, iterates alternative_next (alternative_into elements a) (expand_alternative elements a)) /\
  (forall a, iterates (alternation_next elements) (alternation_into a) (expand_alternation elements a)) /\
  (forall p, iterates parameter_next (parameter_into elements p) (expand_parameter elements p)) /\
  (forall x, iterates (single_expression_next elements) (single_expression_into elements x) (expand_single elements x)) /\
  (forall e, iterates (expression_next elements) (expression_into e) (expand_expression elements e)).
Proof.
  exact (fun I el => conj (optional_iterates el) (conj (alternative_iterates el) (conj (alternation_iterates el)
    (conj (parameter_iterates el) (conj (single_expression_iterates el) (expression_iterates el)))))).
Qed.
Theorem C55_lazy_custom : forall (I : Type) (elements : I -> str) digits spaces words to_string get,
  (forall p, iterates custom_next (custom_into elements digits spaces words to_string get p)
     (expand_custom elements digits spaces words to_string get p)) /\
  (forall x, iterates (single_custom_next elements) (single_custom_into elements digits spaces words to_string get x)
     (expand_single_custom elements digits spaces words to_string get x)) /\
  (forall e, iterates (expression_custom_next elements digits spaces words to_string) (expression_custom_into get e)
     (expand_expression_custom elements digits spaces words to_string get e)).
Proof.
  exact (fun I el d s w t g => conj (custom_iterates el d s w t g) (conj (single_custom_iterates el d s w t g)
    (expression_custom_iterates el d s w t g))).
Qed.
(** Collecting them gives what [collect_result] says, and stops at the first error: [calls] counts the
    calls of [next]. *)
Theorem C55_collect : forall (I : Type) (elements : I -> str) digits spaces words to_string get e,
  (exists fuel, try_collect (expression_next elements) fuel (expression_into e) =
     Some (collect_result (expand_expression elements e), calls (expand_expression elements e))) /\
  (exists fuel, try_collect (expression_custom_next elements digits spaces words to_string) fuel (expression_custom_into get e) =
     Some (collect_result (expand_expression_custom elements digits spaces words to_string get e),
           calls (expand_expression_custom elements digits spaces words to_string get e))).
Proof. exact @lazily. Qed.
Theorem C55_calls : forall (I : Type) (l : list (item I)),
  (forall t, collect_result l = inl t -> calls l = S (List.length t)) /\
  (forall er, collect_result l = inr er -> exists t rest, l = ok t ++ IErr er :: rest /\ calls l = S (List.length t)).
Proof. exact @calls_meaning. Qed.
Print Assumptions C55_lazy. Print Assumptions C55_lazy_custom. Print Assumptions C55_collect. Print Assumptions C55_calls.
(** [a/b(c) {x} {int}]: the error comes at the sixteenth call, before [{int}] and the final [$]. *)
Example C55_example :
  let e := [ExAlternation [[AltText (s_ "a")]; [AltText (s_ "b"); AltOptional (mkOptional (s_ "c"))]];
            ExWhitespaces (s_ " "); ExParameter (mkParameter (s_ "x") 0); ExParameter (mkParameter (s_ "int") 1)] in
  try_collect (expression_next (fun t : str => t)) 100 (expression_into e) = Some (inr (NotFound (s_ "x")), 16%nat) /\
  try_collect (expression_next (fun t : str => t)) 100 (expression_into (firstn 2 e)) = Some (inl (s_ "^(?:a|b(?:c)?) $"), 17%nat).
Proof. vm_compute. easy. Qed.

(** * C56: [OwnedChars] reads its text from the start for each char, so that collecting [n] chars
    takes [(n + 1)(n + 2) / 2] steps. *)
Theorem C56_same : forall s, fst (owned_chars_next_calls s) = owned_chars_next s.
Proof. exact owned_next_same. Qed.
Theorem C56_owned_chars_quadratic : forall s, exists n,
  owned_collect_calls (S (List.length s)) (owned_chars_new s) = Some (s, n) /\
  (2 * n = (List.length s + 1) * (List.length s + 2))%nat.
Proof. exact owned_quadratic. Qed.
Print Assumptions C56_same. Print Assumptions C56_owned_chars_quadratic.
Example C56_example : option_map snd (owned_collect_calls 200 (owned_chars_new (string_regex 7))) = Some 2926%nat.
Proof. vm_compute. reflexivity. Qed.
