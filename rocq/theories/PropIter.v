(** Properties C22 (first half: the text produced), C23, C24. Statements only.
    [iterates next s l]: from state [s] the iterator yields [l], then [None] forever.
    [finishes next s l]: it yields [l], then [None] (and may do anything after that). *)
From Verif Require Import ProofIter ProofEscape2.

(** What [EscapeForRegex] yields: each char of the unescaped text, quoted. *)
Theorem C22_escape : forall St (next : iter St char) s l,
  finishes next s l -> finishes (escape_next next) (escape_new s) (flat_map quote (unescape l)).
Proof. exact (@escape_finishes). Qed.
Theorem C22_escape_stays_finished : forall St (next : iter St char) s l,
  iterates next s l -> iterates (escape_next next) (escape_new s) (flat_map quote (unescape l)).
Proof. exact (@escape_iterates). Qed.
Print Assumptions C22_escape. Print Assumptions C22_escape_stays_finished.
(** Applied to what it yields it changes nothing. *)
Theorem C22_twice : forall St (next : iter St char) s l, iterates next s l ->
  iterates (escape_next (escape_next next)) (escape_new (escape_new s)) (flat_map quote (unescape l)).
Proof. exact escape_twice. Qed.
(** It yields the regex of a text exactly for the spellings of that text. *)
Theorem C22_yields : forall St (next : iter St char) s l, iterates next s l -> forall t,
  iterates (escape_next next) (escape_new s) (flat_map quote t) <-> unescape l = t.
Proof. exact escape_yields. Qed.
Print Assumptions C22_twice. Print Assumptions C22_yields.
(** The doc test of src/expand/mod.rs:547-550: the hypothesis holds for every list. *)
Example C22_example :
  let t := s_ "\\text\ (\)\" in
  iterates list_next t t /\ flat_map quote (unescape t) = s_ "\\text \(\)" /\
  collect 30 (escape_next list_next) (escape_new t) = Some (s_ "\\text \(\)") /\
  collect 30 (escape_next (escape_next list_next)) (escape_new (escape_new t)) = Some (s_ "\\text \(\)").
Proof. split; [apply list_iterates|]. vm_compute. easy. Qed.

Theorem C23_skip_last : forall St A (next : iter St A) s l,
  finishes next s l -> finishes (skip_last_next next) (skip_last_new s) (removelast l).
Proof. exact (@skip_last_finishes). Qed.
Theorem C23_stays_finished : forall St A (next : iter St A) s l,
  iterates next s l -> iterates (skip_last_next next) (skip_last_new s) (removelast l).
Proof. exact (@skip_last_iterates). Qed.
Print Assumptions C23_skip_last. Print Assumptions C23_stays_finished.
Example C23_example : iterates list_next [1; 2; 3] [1; 2; 3] /\ removelast [1; 2; 3] = [1; 2] /\
  collect 9 (skip_last_next list_next) (skip_last_new [1; 2; 3]) = Some [1; 2].
Proof. split; [apply list_iterates|]. vm_compute. easy. Qed.

Theorem C24_owned_chars : forall s, iterates owned_chars_next (owned_chars_new s) s.
Proof. exact owned_chars_iterates. Qed.
Print Assumptions C24_owned_chars.
Example C24_example : outputs owned_chars_next 4 (owned_chars_new (s_ "ab")) =
  [Some (c_ "a"); Some (c_ "b"); None; None].
Proof. reflexivity. Qed.
