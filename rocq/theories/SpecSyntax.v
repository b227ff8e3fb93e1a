(** Regex syntax as a grammar: the specification of C71. Nothing of the parser of Regex.v is used,
    only its syntax trees. The grammar is that of the documentation of the regex crate, as far as
    Regex.v supports it. *)
From Verif Require Import Regex.

Definition starts (c : char) (t : str) : Prop := exists u, t = c :: u.
Definition digits : str := s_ "0123456789".
Definition lower : str := s_ "abcdefghijklmnopqrstuvwxyz".
Definition upper : str := s_ "ABCDEFGHIJKLMNOPQRSTUVWXYZ".

(** ** Escapes *)
(** [\c] stands for the char [d]. *)
Inductive stands_for : char -> char -> Prop :=
| sf_bell : stands_for (c_ "a") 7
| sf_tab : stands_for (c_ "t") 9
| sf_newline : stands_for (c_ "n") 10
| sf_vertical : stands_for (c_ "v") 11
| sf_feed : stands_for (c_ "f") 12
| sf_return : stands_for (c_ "r") 13
| sf_itself c : c < 128 -> ~ In c (digits ++ lower ++ upper ++ s_ "<>") -> stands_for c c.
(** A hexadecimal number. *)
Definition hex_digit (c : char) (v : N) : Prop :=
  v < 16 /\ (nth_error (digits ++ firstn 6 lower) (N.to_nat v) = Some c \/ nth_error (digits ++ firstn 6 upper) (N.to_nat v) = Some c).
Inductive hexadecimal : str -> N -> Prop :=
| he_one c v : hex_digit c v -> hexadecimal [c] v
| he_more t n c v : hexadecimal t n -> hex_digit c v -> hexadecimal (t ++ [c]) (16 * n + v).
(** A backslash followed by [t] stands for the char [d]. *)
Inductive char_escape : str -> char -> Prop :=
| ce_char c d : stands_for c d -> char_escape [c] d
| ce_digits c n t d : In (c, n) [(c_ "x", 2%nat); (c_ "u", 4%nat); (c_ "U", 8%nat)] -> List.length t = n ->
    hexadecimal t d -> d < 1114112 -> ~ 55296 <= d < 57344 -> char_escape (c :: t) d
| ce_braces c t d : In c (s_ "xuU") -> hexadecimal t d -> d < 1114112 -> ~ 55296 <= d < 57344 ->
    char_escape (c :: s_ "{" ++ t ++ s_ "}") d.
(** [\c] stands for a class. *)
Inductive perl_class : char -> class_item -> Prop :=
| pc_digit : perl_class (c_ "d") (CPerl false PDigit)
| pc_not_digit : perl_class (c_ "D") (CPerl true PDigit)
| pc_space : perl_class (c_ "s") (CPerl false PSpace)
| pc_not_space : perl_class (c_ "S") (CPerl true PSpace)
| pc_word : perl_class (c_ "w") (CPerl false PWord)
| pc_not_word : perl_class (c_ "W") (CPerl true PWord).

(** ** Classes *)
(** A char in a class: itself unless it has a meaning there, or escaped. *)
Inductive class_char (special : str) : str -> char -> Prop :=
| cc_plain c : ~ In c special -> class_char special [c] c
| cc_escaped t d : char_escape t d -> class_char special (c_ "\" :: t) d.
(** What follows a char or a class: a dash there makes a range, unless it is the last. *)
Definition no_range (u : str) : Prop := starts (c_ "-") u -> u = s_ "-".
Inductive class_items : str -> list class_item -> Prop :=
| ci_none : class_items [] []
| ci_char t a u l : class_char (s_ "[]&~-\") t a -> no_range u -> class_items u l ->
    class_items (t ++ u) (CRange a a :: l)
| ci_range t a e b u l : class_char (s_ "[]&~-\") t a -> class_char (s_ "]-\") e b -> a <= b ->
    class_items u l -> class_items (t ++ s_ "-" ++ e ++ u) (CRange a b :: l)
| ci_dash u l : ~ starts (c_ "-") u -> class_items u l ->
    class_items (s_ "-" ++ u) (CRange (c_ "-") (c_ "-") :: l)
| ci_perl c i u l : perl_class c i -> no_range u -> class_items u l ->
    class_items ([c_ "\"; c] ++ u) (i :: l).
(** At the beginning a bracket stands for itself, and so do any number of dashes. *)
Inductive class_inside : str -> list class_item -> Prop :=
| cn_bracket u l : class_items u l -> class_inside (s_ "]" ++ u) (CRange (c_ "]") (c_ "]") :: l)
| cn_dashes n u l : class_items u l -> ~ starts (c_ "-") u -> (n = 0%nat -> u <> []) ->
    class_inside (repeat (c_ "-") n ++ u) (repeat (CRange (c_ "-") (c_ "-")) n ++ l).
Inductive class_text : str -> class -> Prop :=
| ct_class u l : class_inside u l -> ~ starts (c_ "^") u ->
    class_text (s_ "[" ++ u ++ s_ "]") (mkClass false l)
| ct_negated u l : class_inside u l -> class_text (s_ "[^" ++ u ++ s_ "]") (mkClass true l)
(** The one operation on classes that is supported: how the empty class is printed. *)
| ct_empty t : class_char (s_ "[]&~-\") t (c_ "a") -> class_text (s_ "[" ++ t ++ s_ "&&b]") (mkClass false []).

(** ** Repetitions *)
Inductive decimal : str -> N -> Prop :=
| de_one c : In c digits -> decimal [c] (c - c_ "0")
| de_more t n c : decimal t n -> In c digits -> decimal (t ++ [c]) (10 * n + (c - c_ "0")).
Inductive operator : str -> N -> option N -> Prop :=
| op_optional : operator (s_ "?") 0 (Some 1)
| op_star : operator (s_ "*") 0 None
| op_plus : operator (s_ "+") 1 None
| op_exactly t n : decimal t n -> n < 2 ^ 32 -> operator (s_ "{" ++ t ++ s_ "}") n (Some n)
| op_least t n : decimal t n -> n < 2 ^ 32 -> operator (s_ "{" ++ t ++ s_ ",}") n None
| op_between t n u m : decimal t n -> decimal u m -> n <= m -> m < 2 ^ 32 ->
    operator (s_ "{" ++ t ++ s_ "," ++ u ++ s_ "}") n (Some m).

(** ** Regexes *)
Inductive group_name : str -> Prop :=
| gn c n : In c (lower ++ upper ++ s_ "_") -> Forall (fun d => In d (lower ++ upper ++ digits ++ s_ "_.[]")) n ->
    group_name (c :: n).
Inductive opens : str -> option (option str) -> Prop :=
| opens_group : opens (s_ "(?:") None
| opens_capture : opens (s_ "(") (Some None)
| opens_named n : group_name n -> opens (s_ "(?P<" ++ n ++ s_ ">") (Some (Some n))
| opens_named' n : group_name n -> opens (s_ "(?<" ++ n ++ s_ ">") (Some (Some n)).

Inductive atom : str -> re -> Prop :=
| at_literal c : ~ In c (s_ "()|[?*+{\.^$") -> atom [c] (RLit c)
| at_dot : atom (s_ ".") RDot
| at_caret : atom (s_ "^") (RLook LStart)
| at_dollar : atom (s_ "$") (RLook LEnd)
| at_start : atom (s_ "\A") (RLook LStart)
| at_end : atom (s_ "\z") (RLook LEnd)
| at_word : atom (s_ "\b") (RLook LWord)
| at_not_word : atom (s_ "\B") (RLook LNotWord)
| at_escaped t d : char_escape t d -> atom (c_ "\" :: t) (RLit d)
| at_perl c i : perl_class c i -> atom [c_ "\"; c] (RClass (mkClass false [i]))
| at_class t k : class_text t k -> atom t (RClass k)
| at_group q k t r : opens q k -> alternatives t r ->
    atom (q ++ t ++ s_ ")") (match k with Some n => RCap n r | None => r end)
(** An atom with its repetitions. A question mark directly after an operator, itself not made lazy,
    makes that operator lazy: the last argument tells whether one would. *)
with repeated : str -> re -> bool -> Prop :=
| rp_atom t r : atom t r -> repeated t r false
| rp_greedy t r o op min max : repeated t r o -> operator op min max -> (o = true -> op <> s_ "?") ->
    repeated (t ++ op) (RRep min max true r) true
| rp_lazy t r o op min max : repeated t r o -> operator op min max -> (o = true -> op <> s_ "?") ->
    repeated (t ++ op ++ s_ "?") (RRep min max false r) false
with sequence : str -> re -> Prop :=
| sq_empty : sequence [] REmpty
| sq_one t r o : repeated t r o -> sequence t r
| sq_more t r o u r' : repeated t r o -> sequence u r' -> u <> [] -> sequence (t ++ u) (RCat r r')
with alternatives : str -> re -> Prop :=
| al_one t r : sequence t r -> alternatives t r
| al_more t r u r' : sequence t r -> alternatives u r' -> alternatives (t ++ s_ "|" ++ u) (RAlt r r').

(** A regex: the syntax, and no name for two groups. *)
Definition regex_text (t : str) (r : re) : Prop := alternatives t r /\ NoDup (group_names r).
