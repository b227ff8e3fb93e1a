(** Property C91 (providers whose answers may change). Statements only. *)
From Verif Require Import ProofAsked.

(** * C91: whatever a provider answers, it is cloned once for each element and asked once for each parameter, from left to
    right, up to the first element that fails; the expansion is made of those answers. *)
Theorem C91_outcome : forall (I : Type) (elements : I -> str) digits spaces words to_string (answer : history I -> I -> option str) e,
  let made := answers elements digits spaces words to_string answer e in
  exists fuel h,
    try_collect_h (expression_custom_next_h elements digits spaces words to_string answer) fuel (expression_custom_into_h e) [] =
      Some (match collect_result made with inl t => inl (s_ "^" ++ t ++ s_ "$") | inr er => inr er end, h) /\
    (forall t, collect_result made = inl t -> h = flat_map events e) /\
    (forall er, collect_result made = inr er -> exists before x after, e = before ++ x :: after /\ h = flat_map events (before ++ [x]) /\
       (forall b1 y b2, before = b1 ++ y :: b2 -> fine (answered elements digits spaces words to_string answer b1 y)) /\
       collect_result (answered elements digits spaces words to_string answer before x) = inr er).
Proof. exact @asked_outcome. Qed.
(** So the questions are the names of the parameters in order, and the clones are as many as the elements. *)
Theorem C91_questions : forall (I : Type) (e : expression I), questions (flat_map events e) = names e /\ clones (flat_map events e) = List.length e.
Proof. exact (fun I e => conj (questions_events e) (clones_events e)). Qed.
(** For a provider whose answers do not change this is the expansion of Params.v. *)
Theorem C91_steady : forall (I : Type) (elements : I -> str) digits spaces words to_string (get : provider I) e,
  ok (s_ "^") ++ answers elements digits spaces words to_string (fun _ => get) e ++ ok (s_ "$") =
  expand_expression_custom elements digits spaces words to_string get e.
Proof. exact (fun I el d s w t g e => f_equal (fun l => ok (s_ "^") ++ l ++ ok (s_ "$")) (asked_steady el d s w t g e)). Qed.
(** [Expression::regex_with_parameters]: a text that does not parse asks nothing; otherwise elements at the start of the expression
    are asked for, all of them if there is a regex. *)
Theorem C91_whole : forall digits spaces words to_string answer input, exists fuel h,
  regex_with_h digits spaces words to_string answer fuel input =
    Some (regex_by (fun e => ok (s_ "^") ++ answers iter_elements digits spaces words to_string answer e ++ ok (s_ "$")) input, h) /\
  match expression_parse input with
  | RetOk e => exists asked_for left_out, e = asked_for ++ left_out /\ h = flat_map events asked_for /\
      forall t r, regex_with_h digits spaces words to_string answer fuel input = Some (XOk t r, h) -> left_out = []
  | _ => h = []
  end.
Proof. exact asked_whole. Qed.
Theorem C91_whole_steady : forall digits spaces words to_string (get : provider span) input, exists fuel h,
  regex_with_h digits spaces words to_string (fun _ => get) fuel input = Some (regex_with_parameters digits spaces words to_string get input, h).
Proof. exact asked_steadily. Qed.
Print Assumptions C91_outcome. Print Assumptions C91_questions. Print Assumptions C91_steady.
Print Assumptions C91_whole. Print Assumptions C91_whole_steady.

(** [{x} {x}{y}{z}] with a provider that answers [a], then [b], then nothing: the same name stands for two matchers, and [z] is
    never asked for. *)
Example C91_example :
  let answer (h : history str) (_ : str) := match questions h with [] => Some (s_ "a") | [_] => Some (s_ "b") | _ => None end in
  let e := [ExParameter (mkParameter (s_ "x") 0); ExWhitespaces (s_ " "); ExParameter (mkParameter (s_ "x") 1);
            ExParameter (mkParameter (s_ "y") 2); ExParameter (mkParameter (s_ "z") 3)] in
  let collect e := try_collect_h (expression_custom_next_h (fun t : str => t) [] [] [] (fun _ => []) answer) 100 (expression_custom_into_h e) [] in
  collect (firstn 3 e) = Some (inl (s_ "^(a) (b)$"), [Cloned; Asked (s_ "x"); Cloned; Cloned; Asked (s_ "x")]) /\
  collect e = Some (inr (NotFound (s_ "y")), [Cloned; Asked (s_ "x"); Cloned; Cloned; Asked (s_ "x"); Cloned; Asked (s_ "y")]).
Proof. vm_compute. easy. Qed.
