(** The unit tests of src/combinator.rs:130-294 and src/parse.rs:723-2181 replayed on the model.
    Tests of the model's fidelity, not proofs of properties. *)
From Verif Require Import Parse.

Definition crab : char := 129408.
Definition sp (x : string) : span := span_new (s_ x).

(** ** src/combinator.rs:130-294 [escaped0_spec]. *)
Definition is_digit (c : char) : bool := (48 <=? c) && (c <=? 57).
Definition digit0 : parser span := take_while is_digit.
Definition digit1 : parser span := take_while1 is_digit.
Definition esc (p : parser span) (x : string) :=
  match escaped0 p (c_ "\") (one_of (c_ """" :: s_ "n\")) (sp x) with
  | Ok r o => Some (frag r, frag o, None)
  | Bad (BError (Other i k)) => Some (frag i, [], Some k)
  | Bad _ => None
  end.
Definition both (x : string) (r : option (str * str * option error_kind)) :=
  esc digit0 x = r /\ esc digit1 x = r.
Example matches_empty : both "" (Some ([], [], None)). Proof. split; reflexivity. Qed.
Example matches_normal : both "123;" (Some (s_ ";", s_ "123", None)). Proof. split; reflexivity. Qed.
Example matches_only_escaped : both "\n\"";" (Some (s_ ";", s_ "\n\""", None)).
Proof. split; reflexivity. Qed.
Example matches_escaped_followed_by_normal : both "\n\""123;" (Some (s_ ";", s_ "\n\""123", None)).
Proof. split; reflexivity. Qed.
Example matches_normal_followed_by_escaped : both "123\n\"";" (Some (s_ ";", s_ "123\n\""", None)).
Proof. split; reflexivity. Qed.
Example matches_mixed1 : both "\n\""123\n;" (Some (s_ ";", s_ "\n\""123\n", None)).
Proof. split; reflexivity. Qed.
Example matches_mixed2 : both "123\n\""567;" (Some (s_ ";", s_ "123\n\""567", None)).
Proof. split; reflexivity. Qed.
Example errors_on_escaped_non_reserved : both "\n\r" (Some (s_ "\r", [], Some KEscaped)).
Proof. split; reflexivity. Qed.
Example errors_on_ending_with_control_char : both "\" (Some (s_ "\", [], Some KEscaped)).
Proof. split; reflexivity. Qed.

(** ** [parameter] (src/parse.rs:769-913). *)
Definition par (x : str) := fst (parse_parameter (span_new x) 0).
Definition par_is (x y : str) : Prop :=
  match par x with Ok r p => frag r = [] /\ frag (par_input p) = y | _ => False end.
Example par_empty : par_is (s_ "{}") []. Proof. vm_compute; auto. Qed.
Example par_named : par_is (s_ "{string}") (s_ "string"). Proof. vm_compute; auto. Qed.
Example par_spaces : par_is (s_ "{with space}") (s_ "with space"). Proof. vm_compute; auto. Qed.
Example par_escaped : par_is (s_ "{with \{}") (s_ "with \{"). Proof. vm_compute; auto. Qed.
Example par_paren : par_is (s_ "{with )}") (s_ "with )"). Proof. vm_compute; auto. Qed.
Example par_emoji : par_is (s_ "{" ++ [crab] ++ s_ "}")%list [crab]. Proof. vm_compute; auto. Qed.
Example par_err_empty : par [] = Bad (BError (Other (span_new []) KTag)). Proof. reflexivity. Qed.
Definition fails {A} (r : result A) (k : span -> error span) (x : string) : Prop :=
  match r with
  | Bad (BFailure e) =>
      match e with
      | NestedParameter i | OptionalInParameter i | UnfinishedParameter i | NestedOptional i
      | ParameterInOptional i | EmptyOptional i | AlternationInOptional i | UnfinishedOptional i
      | EmptyAlternation i | OnlyOptionalInAlternation i | UnescapedReservedCharacter i
      | EscapedNonReservedCharacter i | EscapedEndOfLine i | Other i _ => e = k i /\ frag i = s_ x
      | ENeeded => False
      end
  | _ => False
  end.
Ltac t := repeat (apply Forall_cons || apply Forall_nil); vm_compute; repeat constructor.
Example par_nonreserved : fails (par (s_ "{\r}")) EscapedNonReservedCharacter "\r". Proof. t. Qed.
Example par_nested :
  Forall (fun x => fails (par (s_ x)) NestedParameter "{nest}")
    ["{{nest}}"; "{before{nest}}"; "{{nest}after}"; "{bef{nest}aft}"]%string. Proof. t. Qed.
Example par_optional :
  Forall (fun x => fails (par (s_ x)) OptionalInParameter "(nest)")
    ["{(nest)}"; "{before(nest)}"; "{(nest)after}"; "{bef(nest)aft}"]%string. Proof. t. Qed.
Example par_unescaped :
  Forall (fun x => fails (par (s_ (fst x))) UnescapedReservedCharacter (snd x))
    [("{(opt}", "("); ("{(n(e)st)}", "("); ("{{nest}", "{"); ("{l/r}", "/")]%string. Proof. t. Qed.
Example par_unfinished :
  Forall (fun x => fails (par (s_ x)) UnfinishedParameter "{") ["{"; "{name "]%string. Proof. t. Qed.

(** ** [optional] (src/parse.rs:915-1064). *)
Definition opt (x : str) := parse_optional (span_new x).
Definition opt_is (x y : str) : Prop :=
  match opt x with Ok r p => frag r = [] /\ frag (opt_input p) = y | _ => False end.
Example opt_basic : opt_is (s_ "(string)") (s_ "string"). Proof. vm_compute; auto. Qed.
Example opt_spaces : opt_is (s_ "(with space)") (s_ "with space"). Proof. vm_compute; auto. Qed.
Example opt_escaped : opt_is (s_ "(with \{)") (s_ "with \{"). Proof. vm_compute; auto. Qed.
Example opt_brace : opt_is (s_ "(with })") (s_ "with }"). Proof. vm_compute; auto. Qed.
Example opt_emoji : opt_is (s_ "(" ++ [crab] ++ s_ ")")%list [crab]. Proof. vm_compute; auto. Qed.
Example opt_err_empty : opt [] = Bad (BError (Other (span_new []) KTag)). Proof. reflexivity. Qed.
Example opt_empty : fails (opt (s_ "()")) EmptyOptional "()". Proof. t. Qed.
Example opt_nonreserved : fails (opt (s_ "(\r)")) EscapedNonReservedCharacter "\r". Proof. t. Qed.
Example opt_nested :
  Forall (fun x => fails (opt (s_ x)) NestedOptional "(nest)")
    ["((nest))"; "(before(nest))"; "((nest)after)"; "(bef(nest)aft)"]%string. Proof. t. Qed.
Example opt_parameter :
  Forall (fun x => fails (opt (s_ x)) ParameterInOptional "{nest}")
    ["({nest})"; "(before{nest})"; "({nest}after)"; "(bef{nest}aft)"]%string. Proof. t. Qed.
Example opt_alternation :
  Forall (fun x => fails (opt (s_ x)) AlternationInOptional "/")
    ["(/)"; "(bef/)"; "(/aft)"; "(bef/aft)"]%string. Proof. t. Qed.
Example opt_unescaped :
  Forall (fun x => fails (opt (s_ (fst x))) UnescapedReservedCharacter (snd x))
    [("({opt)", "{"); ("({n{e}st})", "{"); ("((nest)", "(")]%string. Proof. t. Qed.
Example opt_unfinished :
  Forall (fun x => fails (opt (s_ x)) UnfinishedOptional "(") ["("; "(name "]%string. Proof. t. Qed.

(** ** [alternative] (src/parse.rs:1066-1158). *)
Definition altv (x : str) := parse_alternative (span_new x).
Definition alt_text (x y r : str) : Prop :=
  match altv x with Ok i (AltText a) => frag i = r /\ frag a = y | _ => False end.
Example alt_string : alt_text (s_ "string") (s_ "string") []. Proof. vm_compute; auto. Qed.
Example alt_emoji : alt_text [crab] [crab] []. Proof. vm_compute; auto. Qed.
Example alt_escaped_spaces :
  Forall (fun x => alt_text (s_ x) (s_ x) []) ["bef\ "; "\ aft"; "bef\ aft"]%string. Proof. t. Qed.
Example alt_optional :
  match altv (s_ "(opt)") with
  | Ok r (AltOptional o) => frag r = [] /\ frag (opt_input o) = s_ "opt"
  | _ => False
  end. Proof. vm_compute; auto. Qed.
Example alt_not_ws : alt_text (s_ "text ") (s_ "text") (s_ " "). Proof. vm_compute; auto. Qed.
Example alt_err_empty : altv [] = Bad (BError (Other (span_new []) KAlt)). Proof. reflexivity. Qed.
Example alt_unfinished :
  Forall (fun x => fails (altv (s_ x)) UnfinishedOptional "(") ["("; "(opt"]%string. Proof. t. Qed.
Example alt_nonreserved :
  Forall (fun x => fails (altv (s_ x)) EscapedNonReservedCharacter "\r") ["(\r)"; "\r"]%string.
Proof. t. Qed.

(** ** [alternation] (src/parse.rs:1160-1423). *)
Definition altn (x : str) := parse_alternation (span_new x).
Definition tx (o : N) (x : string) := AltText (mkspan o 1 (s_ x)).
Definition op (o : N) (x : string) := AltOptional (mkOptional (mkspan o 1 (s_ x))).
Definition ok_out {A} (r : result A) : option A :=
  match r with Ok i a => if input_len i =? 0 then Some a else None | Bad _ => None end.
Example altn_basic :
  ok_out (altn (s_ "l/" ++ [crab])%list) = Some [[tx 0 "l"]; [AltText (mkspan 2 1 [crab])]].
Proof. reflexivity. Qed.
Example altn_optionals :
  ok_out (altn (s_ "l(opt)/(opt)r/l(opt)r"))
  = Some [[tx 0 "l"; op 2 "opt"]; [op 8 "opt"; tx 12 "r"]; [tx 14 "l"; op 16 "opt"; tx 20 "r"]].
Proof. reflexivity. Qed.
Example altn_more_optionals :
  ok_out (altn (s_ "l(opt)(opt)/(opt)(opt)r/(opt)m(opt)"))
  = Some [[tx 0 "l"; op 2 "opt"; op 7 "opt"]; [op 13 "opt"; op 18 "opt"; tx 22 "r"];
          [op 25 "opt"; tx 29 "m"; op 31 "opt"]].
Proof. reflexivity. Qed.
Definition err_kind {A} (r : result A) : option error_kind :=
  match r with Bad (BError (Other _ k)) => Some k | _ => None end.
Example altn_without_slash :
  map (fun x => err_kind (altn (s_ x))) [""; "{par}"; "text"; "(opt)"]%string
  = [Some KMany1; Some KMany1; Some KTag; Some KTag].
Proof. reflexivity. Qed.
Example altn_empty :
  Forall (fun x => fails (altn (s_ x)) EmptyAlternation "/")
    ["/"; "l/"; "/r"; "l/m/"; "l//r"; "/m/r"]%string. Proof. t. Qed.
Example altn_only_optional :
  Forall (fun x => fails (altn (s_ x)) OnlyOptionalInAlternation x)
    ["text/(opt)"; "text/(opt)(opt)"; "(opt)/text"; "(opt)/(opt)"]%string. Proof. t. Qed.

(** ** [expression] (src/parse.rs:1425-2180). *)
Definition expr (x : string) := parse_expression (sp x).
Definition TX (o : N) (x : string) := ExText (mkspan o 1 (s_ x)).
Definition WS (o : N) := ExWhitespaces (mkspan o 1 (s_ " ")).
Definition PA (o : N) (x : string) (i : N) := ExParameter (mkParameter (mkspan o 1 (s_ x)) i).
Notation is x y := (ok_out (expr x) = Some y) (only parsing).
Example parameters_ids : is "{string} {string}" [PA 1 "string" 0; WS 8; PA 10 "string" 1].
Proof. reflexivity. Qed.
Example allows_escaped_optional_parameter_types : is "\({int})" [TX 0 "\("; PA 3 "int" 0; TX 7 ")"].
Proof. reflexivity. Qed.
Example allows_parameter_type_in_alternation :
  is "a/i{int}n/y" [ExAlternation [[tx 0 "a"]; [tx 2 "i"]]; PA 4 "int" 0;
                    ExAlternation [[tx 8 "n"]; [tx 10 "y"]]].
Proof. reflexivity. Qed.
Example does_allow_parameter_adjacent_to_alternation :
  is "{int}st/nd/rd/th"
     [PA 1 "int" 0; ExAlternation [[tx 5 "st"]; [tx 8 "nd"]; [tx 11 "rd"]; [tx 14 "th"]]].
Proof. reflexivity. Qed.
Example ex1 : fails (expr "three( brown/black) mice") AlternationInOptional "/". Proof. t. Qed.
Example ex2 : fails (expr "{int}/x") EmptyAlternation "/". Proof. t. Qed.
Example ex3 : fails (expr "three (brown)/black mice") OnlyOptionalInAlternation "(brown)/black".
Proof. t. Qed.
Example ex4 : fails (expr "x/{int}") EmptyAlternation "/". Proof. t. Qed.
Example ex5 : fails (expr "three brown//black mice") EmptyAlternation "/". Proof. t. Qed.
Example ex6 : fails (expr "three () mice") EmptyOptional "()". Proof. t. Qed.
Example ex7 : fails (expr "(a(b))") NestedOptional "(b)". Proof. t. Qed.
Example ex8 : fails (expr "({int})") ParameterInOptional "{int}". Proof. t. Qed.
Example ex9 : fails (expr "{(string)}") OptionalInParameter "(string)". Proof. t. Qed.
Example ex10 : fails (expr "three (exceptionally\) {string\} mice") UnescapedReservedCharacter "{".
Proof. t. Qed.
Example ex11 : fails (expr "three (exceptionally\) {string} mice") ParameterInOptional "{string}".
Proof. t. Qed.
Example ex12 : fails (expr "three ((exceptionally\) strong) mice") UnescapedReservedCharacter "(".
Proof. t. Qed.
Example matches_alternation :
  is "mice/rats and rats\/mice"
     [ExAlternation [[tx 0 "mice"]; [tx 5 "rats"]]; WS 9; TX 10 "and"; WS 13; TX 14 "rats\/mice"].
Proof. reflexivity. Qed.
Example matches_anonymous : is "{}" [PA 1 "" 0]. Proof. reflexivity. Qed.
Example matches_doubly_escaped_parenthesis :
  is "three \(exceptionally) \{string} mice"
     [TX 0 "three"; WS 5; TX 6 "\(exceptionally)"; WS 22; TX 23 "\{string}"; WS 32; TX 33 "mice"].
Proof. reflexivity. Qed.
Example matches_doubly_escaped_slash :
  is "12\\/2020" [ExAlternation [[tx 0 "12\\"]; [tx 5 "2020"]]]. Proof. reflexivity. Qed.
Example matches_optional_before_alternation :
  is "three (brown )mice/rats"
     [TX 0 "three"; WS 5; ExAlternation [[op 7 "brown "; tx 14 "mice"]; [tx 19 "rats"]]].
Proof. reflexivity. Qed.
Example matches_optional_in_alternation :
  is "{int} rat(s)/mouse/mice"
     [PA 1 "int" 0; WS 5; ExAlternation [[tx 6 "rat"; op 10 "s"]; [tx 13 "mouse"]; [tx 19 "mice"]]].
Proof. reflexivity. Qed.
Example err_on_escaped_end_of_line : fails (expr "\") EscapedEndOfLine "\". Proof. t. Qed.
Example empty : is "" []. Proof. reflexivity. Qed.

(** Beyond the repository's tests: the trailing backslash after text (finding F1). *)
Example trailing_backslash_after_text : fails (expr "ab\") EscapedNonReservedCharacter "ab".
Proof. t. Qed.
