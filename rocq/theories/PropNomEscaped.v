(** C77: [escaped0] against nom's [escaped], the three differences its documentation names. *)
From Verif Require Import ProofNomEscaped.

(** nom's [escaped], for any parsers and any control character: exactly what its specification says. *)
Theorem C77_escaped {A B} (N_ : parser A) (E_ : parser B) (normal escapable : str -> option (str * str)) (control : char) :
  reads_as N_ normal -> tries_as E_ escapable ->
  forall (o l : N) (s : str) (out : result span),
  nom_escaped N_ control E_ (mkspan o l s) = out <-> nom_gives normal escapable control E_ o l s out.
Proof. exact (nom_escaped_exact N_ E_ normal escapable control). Qed.
Print Assumptions C77_escaped.

(** Difference 1. Where [escaped] returns a text [t] and leaves [r], [escaped0] returns the same, unless [r] starts with
    the control character: then [normal] takes the empty text there, and [escaped0] goes on, from [r]. *)
Theorem C77_goes_on {A B} (N_ : parser A) (E_ : parser B) (normal escapable : str -> option (str * str)) (control : char) :
  reads_as N_ normal -> tries_as E_ escapable ->
  forall (o l : N) (s : str) (rest out : span), nom_escaped N_ control E_ (mkspan o l s) = Ok rest out ->
  exists t r, s = t ++ r /\ rest = span_at o l (t, r) /\ out = span_at o l ([], t) /\
  (~ starts_with_in [control] r -> escaped0 N_ control E_ (mkspan o l s) = Ok rest out) /\
  (starts_with_in [control] r -> (exists q, normal r = Some ([], q)) /\
     match escaped0 N_ control E_ rest with
     | Ok rest' out' => escaped0 N_ control E_ (mkspan o l s) = Ok rest' (span_at o l ([], t ++ frag out'))
     | Bad _ => exists at_, escaped0 N_ control E_ (mkspan o l s) = recoverable at_ KEscaped
     end).
Proof. exact (nom_ok N_ E_ normal escapable control). Qed.
Print Assumptions C77_goes_on.

(** Differences 2 and 3. Where [escaped] fails, [escaped0] returns the empty text (nothing normal, no control character at
    the start); or fails the same way (the control character ends the text); or, where [escaped] hands on the error of
    [escapable], fails with [Escaped] at the control character. *)
Theorem C77_errors {A B} (N_ : parser A) (E_ : parser B) (normal escapable : str -> option (str * str)) (control : char) :
  reads_as N_ normal -> tries_as E_ escapable ->
  forall (o l : N) (s : str) (b : bad), nom_escaped N_ control E_ (mkspan o l s) = Bad b ->
  (s <> [] /\ normal s = None /\ ~ starts_with_in [control] s /\
   @Bad span b = recoverable (span_at o l ([], s)) KEscaped /\
   escaped0 N_ control E_ (mkspan o l s) = Ok (span_at o l ([], s)) (span_at o l ([], []))) \/
  (exists t, s = t ++ [control] /\ normal [control] = None /\
   @Bad span b = recoverable (span_at o l ([], s)) KEscaped /\
   escaped0 N_ control E_ (mkspan o l s) = Bad b) \/
  (exists t r, s = t ++ control :: r /\ r <> [] /\ normal (control :: r) = None /\ escapable r = None /\
   E_ (span_at o l (t ++ [control], r)) = Bad b /\
   escaped0 N_ control E_ (mkspan o l s) = recoverable (span_at o l (t, control :: r)) KEscaped).
Proof. exact (nom_bad N_ E_ normal escapable control). Qed.
Print Assumptions C77_errors.

(** With a [normal] that never takes the empty text: the same texts, but for the empty one. *)
Theorem C77_strict {A B} (N_ : parser A) (E_ : parser B) (normal escapable : str -> option (str * str)) (control : char) :
  reads_as N_ normal -> tries_as E_ escapable ->
  forall o l : N, (forall s w r, normal s = Some (w, r) -> w <> []) -> forall s rest out,
  (nom_escaped N_ control E_ (mkspan o l s) = Ok rest out -> escaped0 N_ control E_ (mkspan o l s) = Ok rest out) /\
  (escaped0 N_ control E_ (mkspan o l s) = Ok rest out ->
   nom_escaped N_ control E_ (mkspan o l s) = Ok rest out \/ (s <> [] /\ rest = mkspan o l s /\ out = mkspan o l [])).
Proof. exact (nom_strict N_ E_ normal escapable control). Qed.
Print Assumptions C77_strict.

(** As the crate uses it ([take_while], [one_of]), against [escaped] with [take_while1]. *)
Theorem C77_characters (f : char -> bool) (control : char) (cs : str) (o l : N) (s : str) rest out :
  (nom_escaped (take_while1 f) control (one_of cs) (mkspan o l s) = Ok rest out ->
   escaped0 (take_while f) control (one_of cs) (mkspan o l s) = Ok rest out) /\
  (escaped0 (take_while f) control (one_of cs) (mkspan o l s) = Ok rest out ->
   nom_escaped (take_while1 f) control (one_of cs) (mkspan o l s) = Ok rest out \/
   (s <> [] /\ rest = mkspan o l s /\ out = mkspan o l [])).
Proof. exact (nom_characters f control cs o l s rest out). Qed.
Print Assumptions C77_characters.

(** The outcomes of [escaped] in the crate's tests (src/combinator.rs:164-294), [digit0] first; then one input for each
    difference. *)
Example C77_tests :
  let digit c := (c_ "0" <=? c) && (c <=? c_ "9") in
  let esc := [c_ """"; c_ "n"; backslash] in
  let n0 s := nom_escaped (take_while digit) backslash (one_of esc) (mkspan 0 1 s) in
  let n1 s := nom_escaped (take_while1 digit) backslash (one_of esc) (mkspan 0 1 s) in
  let e0 s := escaped0 (take_while digit) backslash (one_of esc) (mkspan 0 1 s) in
  let e1 s := escaped0 (take_while1 digit) backslash (one_of esc) (mkspan 0 1 s) in
  let yes t r := Ok (span_at 0 1 (t, r)) (span_at 0 1 ([], t)) in
  (n0 [] = yes [] [] /\ n1 [] = yes [] []) /\
  (n0 (s_ "123;") = yes (s_ "123") (s_ ";") /\ n1 (s_ "123;") = yes (s_ "123") (s_ ";")) /\
  (n0 (s_ "\n\"";") = yes [] (s_ "\n\"";") /\ n1 (s_ "\n\"";") = yes (s_ "\n\""") (s_ ";")) /\
  (n0 (s_ "\n\""123;") = yes [] (s_ "\n\""123;") /\ n1 (s_ "\n\""123;") = yes (s_ "\n\""123") (s_ ";")) /\
  (n0 (s_ "123\n\"";") = yes (s_ "123") (s_ "\n\"";") /\ n1 (s_ "123\n\"";") = yes (s_ "123\n\""") (s_ ";")) /\
  (n0 (s_ "\n\""123\n;") = yes [] (s_ "\n\""123\n;") /\ n1 (s_ "\n\""123\n;") = yes (s_ "\n\""123\n") (s_ ";")) /\
  (n0 (s_ "123\n\""567;") = yes (s_ "123") (s_ "\n\""567;") /\ n1 (s_ "123\n\""567;") = yes (s_ "123\n\""567") (s_ ";")) /\
  (n0 (s_ "\n\r") = yes [] (s_ "\n\r") /\ n1 (s_ "\n\r") = recoverable (span_at 0 1 (s_ "\n\", s_ "r")) KOneOf) /\
  (n0 (s_ "\") = yes [] (s_ "\") /\ n1 (s_ "\") = recoverable (span_at 0 1 ([], s_ "\")) KEscaped) /\
  (* 1 *) (n0 (s_ "12\n;") = yes (s_ "12") (s_ "\n;") /\ e0 (s_ "12\n;") = yes (s_ "12\n") (s_ ";")) /\
  (* 2 *) (n1 (s_ ";1") = recoverable (span_at 0 1 ([], s_ ";1")) KEscaped /\ e1 (s_ ";1") = yes [] (s_ ";1")) /\
  (* 3 *) (n1 (s_ "12\x") = recoverable (span_at 0 1 (s_ "12\", s_ "x")) KOneOf /\
           e1 (s_ "12\x") = recoverable (span_at 0 1 (s_ "12", s_ "\x")) KEscaped).
Proof. vm_compute. repeat split. Qed.
