(** The [is_match] assertions of the crate's tests (src/expand/mod.rs:620-778) and the documented
    example (README.md:21-25), replayed on the model. Tests, not proofs of anything. *)
From Verif Require Import Match Expand.

Definition t_digit (c : char) : bool := (48 <=? c) && (c <=? 57).
Definition t_space (c : char) : bool := (c =? 32) || (9 <=? c) && (c <=? 13).
Definition t_word (c : char) : bool := t_digit c || is_letter c || (c =? 95).
Definition t_captures (e s : str) : option (option (list (option str))) :=
  match expression_regex e with XOk _ r => Some (captures t_digit t_space t_word r s) | _ => None end.
(** The expression is expanded, and matches all of the first list and none of the second. *)
Definition t_matches (e : str) (yes no : list str) : bool :=
  match expression_regex e with
  | XOk _ r => let m := matches t_digit t_space t_word r in forallb m yes && forallb (fun s => negb (m s)) no
  | _ => false
  end.
Notation "'test' x" := (x = true) (at level 10, x at level 9).
Local Ltac t := vm_compute; reflexivity.

Example readme : t_captures (s_ "I have {int} cucumbers in my belly") (s_ "I have 42 cucumbers in my belly") =
  Some (Some [Some (s_ "I have 42 cucumbers in my belly"); Some (s_ "42")]).
Proof. t. Qed.
Example alternation : test (t_matches (s_ "a/b c/d/e") [s_ "a c"; s_ "b e"] [s_ "c e"; s_ "a"; s_ "a "]).
Proof. t. Qed.
Example empty : test (t_matches [] [[]] [s_ "a"]).
Proof. t. Qed.
Example escape_regex_characters : test (t_matches (s_ "^$[]\()\{}\\.|?*+") [s_ "^$[](){}\.|?*+"] []).
Proof. t. Qed.
Example optional : test (t_matches (s_ "(a)") [[]; s_ "a"] [s_ "b"]).
Proof. t. Qed.
Example parameter_int : test (t_matches (s_ "{int}") [s_ "123"; s_ "-123"] [s_ "+123"; s_ "123."]).
Proof. t. Qed.
Example parameter_float : test (t_matches (s_ "{float}")
  [s_ "+1"; s_ ".1"; s_ "-.1"; s_ "-1."; s_ "-1.1E+1"; s_ "-inf"; s_ "NaN"] []).
Proof. t. Qed.
Example parameter_word : test (t_matches (s_ "{word}") [s_ "test"; s_ """test"""] [s_ "with space"]).
Proof. t. Qed.
Example parameter_string : test (t_matches (s_ "{string}")
  [s_ """"""; s_ "''"; s_ "'with ""'"; s_ """with '"""; s_ """with \"" escaped"""; s_ "'with \' escaped'"] [s_ "word"]).
Proof. t. Qed.
Example multiple_string_parameters : test (t_matches (s_ "{string} {string}")
  [s_ """"" ''"; s_ "'' """""; s_ "'with ""' """""; s_ """with '"" '""'";
   s_ """with \"" escaped"" 'with \' escaped'"; s_ "'with \' escaped' ""with \"" escaped"""] []).
Proof. t. Qed.
Example parameter_all : test (t_matches (s_ "{}") [s_ "anything matches"] []).
Proof. t. Qed.
Example text : test (t_matches (s_ "a") [s_ "a"] [s_ "b"; s_ "ab"]).
Proof. t. Qed.
(** Привет, Мир(ы)! *)
Definition hello : str := [1055; 1088; 1080; 1074; 1077; 1090; 44; 32; 1052; 1080; 1088].
Example unicode : test (t_matches (hello ++ [40; 1099; 41; 33]) [hello ++ [33]; hello ++ [1099; 33]] [s_ "Hello world"]).
Proof. t. Qed.

(** The preferences, observed. *)
Example greedy_int : t_captures (s_ "{int}{int}") (s_ "123") = Some (Some [Some (s_ "123"); Some (s_ "12"); Some (s_ "3")]).
Proof. t. Qed.
Example shy_float : t_captures (s_ "{float}{word}") (s_ "1.5") = Some (Some [Some (s_ "1.5"); Some (s_ "1"); Some (s_ ".5")]).
Proof. t. Qed.
Example optional_first : t_captures (s_ "(a){}") (s_ "ab") = Some (Some [Some (s_ "ab"); Some (s_ "b")]).
Proof. t. Qed.
