(** The unit tests of src/expand/parameters.rs:379-433, and other checks of the model. Tests, not proofs. *)
From Coq Require Import String.
From Verif Require Import Params.

(** A small part of the Unicode tables. *)
Definition ascii_digits : ranges := [(48, 57)].
Definition ascii_spaces : ranges := [(9, 13); (32, 32)].
Definition ascii_words : ranges := [(48, 57); (65, 90); (95, 95); (97, 122)].
Definition with_map (m : list (string * string)) (e : string) : expanded span :=
  regex_with_parameters ascii_digits ascii_spaces ascii_words (show false)
    (hash_map_get iter_elements (map (fun x => (s_ (fst x), s_ (snd x))) m)) (s_ e).
Definition text_with (m : list (string * string)) (e t : string) : Prop :=
  match with_map m e with XOk u _ => u = s_ t | _ => False end.

Example custom_parameter : text_with [("custom", "custom")]%string "{custom}" "^(custom)$".
Proof. vm_compute. reflexivity. Qed.
Example custom_parameter_with_groups :
  text_with [("custom", """(custom)""|'(custom)'")]%string "{custom} {custom}"
    "^(?:(?:(?:""(?P<__0_0>(?:custom))"")|(?:'(?P<__0_1>(?:custom))'))) (?:(?:(?:""(?P<__1_0>(?:custom))"")|(?:'(?P<__1_1>(?:custom))')))$".
Proof. vm_compute. reflexivity. Qed.
Example default_parameter : text_with [("custom", "custom")]%string "{}" "^(.*)$".
Proof. vm_compute. reflexivity. Qed.
Example unknown_parameter : with_map [] "{custom}" = XExpansion (NotFound (mkspan 1 1 (s_ "custom"))).
Proof. vm_compute. reflexivity. Qed.

(** The printer. *)
Definition shown (t : string) : option string :=
  match regex_new (s_ t) with
  | Done r => Some (string_of_list_ascii (map Ascii.ascii_of_N (show false (translate ascii_digits ascii_spaces ascii_words r))))
  | _ => None
  end.
Example shown_tests :
  map shown ["a"; "ab"; "a|b"; "ab|ac"; "(x)b|ac"; "(a)b|(a)c"; "x[ab]{2}"; "x(?:ab)+y"; "a{1}"; "a{0}b"; "[0-9a-c]";
    "(?:)*"; "^(?:^$)+$"; "a|b|[c]"; "[ab]|[cd]"; "(?:a+)?"; "\d+?"; "()"; "(?P<n>x{2,})"; "a**"; "[\]\-^]"; "x|"; ""; "x+y|x+z|x+" ]%string =
  map Some ["a"; "(?:ab)"; "[ab]"; "(?:(?:ab)|(?:ac))"; "(?:(?:(x)b)|(?:ac))"; "(?:(?:(a)b)|(?:(a)c))"; "(?:x[ab]{2})"; "(?:x(?:ab)+y)";
    "a"; "b"; "[0-9a-c]"; "(?:)?"; "(?:\A\A\z\z)"; "[a-c]"; "[a-d]"; "a+?"; "[0-9]+?"; "((?:))"; "(?P<n>x{2,})"; "a**";
    "[\-\]\^]"; "(?:x|(?:))"; "(?:)"; "(?:(?:x+y)|(?:x+z)|x+)"]%string.
Proof. vm_compute. reflexivity. Qed.
Example shown_prefix : shown "x+y|x+zt|x+" = Some "(?:(?:x+y)|(?:x+(?:zt))|x+)"%string /\
  shown "x+y|x+zt" = Some "(?:x+(?:y|(?:zt)))"%string /\ shown "x+y|x+z" = Some "(?:x+[yz])"%string.
Proof. vm_compute. auto. Qed.

(** Findings. A group under a repetition is neither detected nor renamed. *)
Example nested_group : text_with [("p", "(a)*")]%string "{p}" "^((a)*)$".
Proof. vm_compute. reflexivity. Qed.
Example named_twice : with_map [("p", "(?P<n>a)*")]%string "{p} {p}" = XRegex.
Proof. vm_compute. reflexivity. Qed.
(** A matcher without a parenthesis is pasted without any check. *)
Example injection : text_with [("p", "a)|b\")]%string "{p}" "^(a)|b\)$".
Proof. vm_compute. reflexivity. Qed.
(** An error in a matcher with a parenthesis. *)
Example rename_error : with_map [("p", "(a")]%string "{int}{p}{q}" = XExpansion (RenameRegexGroup (mkspan 6 1 (s_ "p")) (s_ "(a")).
Proof. vm_compute. reflexivity. Qed.
