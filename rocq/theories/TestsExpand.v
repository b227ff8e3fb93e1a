(** The unit tests of src/expand/mod.rs:608-792 on the model (tests of fidelity, not proofs). *)
From Verif Require Import Expand.

Definition regex_text {I} (x : expanded I) : option str :=
  match x with XOk t _ => Some t | _ => None end.
Definition regex_ast {I} (x : expanded I) : re :=
  match x with XOk _ r => r | _ => REmpty end.

(** A matcher on fuel, only for these tests: all ends of a match starting after [pre]. *)
Definition digit (c : char) := is_digit_char c.
Definition space (c : char) := contains (s_ " " ++ [9; 10; 13]) c.
Definition word (c : char) := is_digit_char c || is_letter c || (c =? c_ "_").
(** Not for [\b] and [\B], which no built-in parameter has. *)
Fixpoint ends (fuel : nat) (r : re) (start : bool) (s : str) : list (bool * str) :=
  match fuel with
  | O => []
  | S f =>
      match r with
      | REmpty => [(start, s)]
      | RLit c => match s with d :: s' => if c =? d then [(false, s')] else [] | [] => [] end
      | RDot => match s with d :: s' => if d =? 10 then [] else [(false, s')] | [] => [] end
      | RClass k => match s with d :: s' => if class_has digit space word k d then [(false, s')] else [] | [] => [] end
      | RLook LStart => if start then [(start, s)] else []
      | RLook LEnd => match s with [] => [(start, s)] | _ => [] end
      | RLook (LWord | LNotWord) => []
      | RCap _ r => ends f r start s
      | RCat a b => flat_map (fun '(st, s') => ends f b st s') (ends f a start s)
      | RAlt a b => ends f a start s ++ ends f b start s
      | RRep min max g r =>
          let more := flat_map (fun '(st, s') => if Nat.ltb (List.length s') (List.length s) || (0 <? min)
                        then ends f (RRep (min - 1) (option_map (fun n => n - 1) max) g r) st s' else [])
                      (ends f r start s) in
          match max with
          | Some 0 => [(start, s)]
          | _ => if min =? 0 then (start, s) :: more else more
          end
      end
  end.
Definition matches (e s : string) : bool :=
  existsb (fun '(_, r) => match r with [] => true | _ => false end)
    (ends 200 (regex_ast (expression_regex (s_ e))) true (s_ s)).

Definition text_is (e t : string) : Prop := regex_text (expression_regex (s_ e)) = Some (s_ t).
Ltac go := vm_compute; repeat split; reflexivity.

Example alternation_with_optional : text_is "a/b(c)" "^(?:a|b(?:c)?)$". Proof. go. Qed.
Example alternation_ : text_is "a/b c/d/e" "^(?:a|b) (?:c|d|e)$" /\
  map (matches "a/b c/d/e") ["a c"; "b e"; "c e"; "a"; "a "]%string = [true; true; false; false; false].
Proof. go. Qed.
Example empty : text_is "" "^$" /\ map (matches "") [""; "a"]%string = [true; false].
Proof. go. Qed.
Example escape_regex_characters :
  text_is "^$[]\()\{}\\.|?*+" "^\^\$\[\]\(\)\{\}\\\.\|\?\*\+$" /\
  matches "^$[]\()\{}\\.|?*+" "^$[](){}\.|?*+" = true.
Proof. go. Qed.
Example optional_ : text_is "(a)" "^(?:a)?$" /\ map (matches "(a)") [""; "a"; "b"]%string = [true; true; false].
Proof. go. Qed.
Example parameter_int : text_is "{int}" "^((?:-?\d+)|(?:\d+))$" /\
  map (matches "{int}") ["123"; "-123"; "+123"; "123."]%string = [true; true; false; false].
Proof. go. Qed.
Example parameter_float :
  text_is "{float}" "^([+-]?(?:inf|NaN|(?:\d+|\d+\.\d*|\d*\.\d+)(?:[eE][+-]?\d+)?))$" /\
  forallb (matches "{float}") ["+1"; ".1"; "-.1"; "-1."; "-1.1E+1"; "-inf"; "NaN"]%string = true.
Proof. go. Qed.
Example parameter_word : text_is "{word}" "^([^\s]+)$" /\
  map (matches "{word}") ["test"; """test"""; "with space"]%string = [true; true; false].
Proof. go. Qed.
Example parameter_string :
  text_is "{string}" "^(?:""(?P<__0_0>[^""\\]*(?:\\.[^""\\]*)*)""|'(?P<__0_1>[^'\\]*(?:\\.[^'\\]*)*)')$" /\
  map (matches "{string}") [""""""; "''"; "'with ""'"; """with '"""; """with \"" escaped""";
    "'with \' escaped'"; "word"]%string = [true; true; true; true; true; true; false].
Proof. go. Qed.
Example multiple_string_parameters :
  text_is "{string} {string}"
    "^(?:""(?P<__0_0>[^""\\]*(?:\\.[^""\\]*)*)""|'(?P<__0_1>[^'\\]*(?:\\.[^'\\]*)*)') (?:""(?P<__1_0>[^""\\]*(?:\\.[^""\\]*)*)""|'(?P<__1_1>[^'\\]*(?:\\.[^'\\]*)*)')$" /\
  forallb (matches "{string} {string}") [""""" ''"; "'' """""; "'with ""' """""; """with '"" '""'";
    """with \"" escaped"" 'with \' escaped'"; "'with \' escaped' ""with \"" escaped"""]%string = true.
Proof. go. Qed.
Example parameter_all : text_is "{}" "^(.*)$" /\ matches "{}" "anything matches" = true. Proof. go. Qed.
Example text : text_is "a" "^a$" /\ map (matches "a") ["a"; "b"; "ab"]%string = [true; false; false].
Proof. go. Qed.
(** The test [unicode], with the code points written out: [t] is a Cyrillic text, [y] the letter 0x44B. *)
Example unicode : let t := [1055; 1088; 1080; 1074; 1077; 1090; 44; 32; 1052; 1080; 1088] in
  regex_text (expression_regex (t ++ s_ "(" ++ [1099] ++ s_ ")!")) =
  Some (s_ "^" ++ t ++ s_ "(?:" ++ [1099] ++ s_ ")?!$").
Proof. go. Qed.
Example unknown_parameter :
  expression_regex (s_ "{custom}") = XExpansion (NotFound (mkspan 1 1 (s_ "custom"))).
Proof. go. Qed.
