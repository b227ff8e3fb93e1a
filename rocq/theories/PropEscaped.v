(** C63: [escaped0], for any parsers and any control character. *)
From Verif Require Import ProofEscaped.

(** For any [normal] and [escapable] parsers that read what [normal] and [escapable] say, any control character (of any
    length in UTF-8): [escaped0] gives [out] exactly when the specification does. In particular it always returns, and
    panics nowhere. *)
Theorem C63_exact {A B} (N_ : parser A) (E_ : parser B) (normal escapable : str -> option (str * str)) (control : char) :
  reads_as N_ normal -> tries_as E_ escapable ->
  forall (o l : N) (s : str) (out : result span),
  escaped0 N_ control E_ (mkspan o l s) = out <-> escaped_gives normal escapable control o l s out.
Proof. exact (escaped0_exact N_ E_ normal escapable control). Qed.
Print Assumptions C63_exact.

(** The parsers of nom that the crate hands to it, and those its tests do. *)
Theorem C63_parsers (f : char -> bool) (cs : str) :
  reads_as (take_while f) (longest0 f) /\ reads_as (take_while1 f) (longest1 f) /\
  reads_as (one_of cs) (any_of cs) /\ tries_as (one_of cs) (any_of cs).
Proof. exact (parsers_read f cs). Qed.
Print Assumptions C63_parsers.

(** With characters for both: what is taken is of [f] or escaped, the longest such. [take_while] or [take_while1] makes
    no difference. *)
Theorem C63_characters (f : char -> bool) (control : char) (cs : str) (o l : N) (s : str) :
  escaped0 (take_while f) control (one_of cs) (mkspan o l s) = escaped0 (take_while1 f) control (one_of cs) (mkspan o l s) /\
  forall t r : str,
  escaped0 (take_while f) control (one_of cs) (mkspan o l s) = Ok (span_at o l (t, r)) (span_at o l ([], t)) <->
  s = t ++ r /\ escaped_content f control cs t /\
  match r with [] => True | c :: _ => f c = false /\ c <> control end.
Proof. exact (escaped0_characters f control cs o l s). Qed.
Print Assumptions C63_characters.

(** The crate's own tests (src/combinator.rs:165-293), and a control character of three bytes. *)
Example C63_example :
  let digit c := (c_ "0" <=? c) && (c <=? c_ "9") in
  let esc := [c_ """"; c_ "n"; backslash] in
  let e0 s := escaped0 (take_while digit) backslash (one_of esc) (mkspan 0 1 s) in
  let e1 s := escaped0 (take_while1 digit) backslash (one_of esc) (mkspan 0 1 s) in
  let yes t r := Ok (span_at 0 1 (t, r)) (span_at 0 1 ([], t)) in
  (e0 [] = yes [] [] /\ e1 [] = yes [] []) /\
  (e0 (s_ "123;") = yes (s_ "123") (s_ ";") /\ e1 (s_ "123;") = yes (s_ "123") (s_ ";")) /\
  (e0 (s_ "\n\"";") = yes (s_ "\n\""") (s_ ";") /\ e1 (s_ "\n\"";") = yes (s_ "\n\""") (s_ ";")) /\
  (e0 (s_ "\n\""123;") = yes (s_ "\n\""123") (s_ ";") /\ e1 (s_ "\n\""123;") = yes (s_ "\n\""123") (s_ ";")) /\
  (e0 (s_ "123\n\"";") = yes (s_ "123\n\""") (s_ ";") /\ e1 (s_ "123\n\"";") = yes (s_ "123\n\""") (s_ ";")) /\
  (e0 (s_ "\n\""123\n;") = yes (s_ "\n\""123\n") (s_ ";") /\ e1 (s_ "\n\""123\n;") = yes (s_ "\n\""123\n") (s_ ";")) /\
  (e0 (s_ "123\n\""567;") = yes (s_ "123\n\""567") (s_ ";") /\ e1 (s_ "123\n\""567;") = yes (s_ "123\n\""567") (s_ ";")) /\
  (e0 (s_ "\n\r") = recoverable (span_at 0 1 (s_ "\n", s_ "\r")) KEscaped /\
   e1 (s_ "\n\r") = recoverable (span_at 0 1 (s_ "\n", s_ "\r")) KEscaped) /\
  (e0 (s_ "\") = recoverable (span_at 0 1 ([], s_ "\")) KEscaped /\ e1 (s_ "\") = recoverable (span_at 0 1 ([], s_ "\")) KEscaped) /\
  escaped0 (take_while digit) 8364 (one_of esc) (mkspan 0 1 ([49; 8364; c_ "n"; 50; 8364; c_ "n"; c_ ";"])) =
    yes [49; 8364; c_ "n"; 50; 8364; c_ "n"] (s_ ";") /\
  escaped0 (take_while digit) 8364 (one_of esc) (mkspan 0 1 ([49; 8364; c_ "n"; 8364; c_ "x"])) =
    recoverable (span_at 0 1 ([49; 8364; c_ "n"], [8364; c_ "x"])) KEscaped.
Proof. vm_compute. repeat split. Qed.
