(** Property C83 (Rust chars). Statements only; every proof is a lemma of the proof layer. The model's chars are
    all numbers; Rust's are those up to 0x10FFFF but for the surrogates ([scalar]). *)
From Verif Require Import ProofScalar.

(** * C83: no number that is not a Rust char appears in the text of a regex or in what is captured. *)
(** The regex of an expression is made of chars of the expression and of ASCII. *)
Theorem C83_regex : forall s t r, addressable s -> expression_regex s = XOk t r ->
  Forall (fun c => In c s \/ ascii_char c) t.
Proof. exact regex_chars. Qed.
Print Assumptions C83_regex.
(** With custom parameters other chars may appear, as classes are printed by the bounds of their ranges; but only
    Rust chars. *)
Theorem C83_custom : forall digits spaces words wrap get s e t r,
  rust_tables digits spaces words -> addressable s -> rust_string s -> expression_parse s = RetOk e ->
  (forall p v, In p (parameters e) -> get (par_input p) = Some v -> rust_string v) ->
  regex_with_parameters digits spaces words (show wrap) get s = XOk t r -> rust_string t.
Proof. exact custom_chars. Qed.
Print Assumptions C83_custom.
(** What a search captures are pieces of the subject. *)
Theorem C83_captured : forall digits spaces words r s c, hir_captures digits spaces words r s = Some c ->
  Forall (piece_of s) c /\ (rust_string s -> forall t, In (Some t) c -> rust_string t).
Proof. exact hir_pieces. Qed.
Print Assumptions C83_captured.

Definition digits : ranges := [(48, 57); (1632, 1641)].
Definition blanks : ranges := [(9, 13); (32, 32)].
Definition letters : ranges := [(48, 57); (65, 90); (95, 95); (97, 122)].
(** The matcher is [([^x])] with the last char before the surrogates for [x]: the class is printed with a range from
    the first char after them. *)
Definition matcher : str := s_ "([^" ++ [55295] ++ s_ "])".
Example C83_gap : exists r, regex_with_parameters digits blanks letters (show true) (fun _ => Some matcher) (s_ "{p}") =
  XOk (s_ "^(?:(?P<__0_0>[" ++ [0; 45; 55294; 57344; 45; 1114111] ++ s_ "]))$") r /\
  hir_captures digits blanks letters r [57344] = Some [Some [57344]; Some [57344]] /\
  hir_captures digits blanks letters r [55295] = None.
Proof. eexists. split; [vm_compute; reflexivity|]. split; vm_compute; reflexivity. Qed.
Example C83_tables : rust_tables digits blanks letters.
Proof. repeat constructor; vm_compute; intuition discriminate. Qed.
Example C83_surrogate : ~ rust_string [55296] /\ rust_string matcher.
Proof. split; [intros H; inversion H as [|? ? H1]; vm_compute in H1; intuition congruence|repeat constructor; vm_compute; intuition discriminate]. Qed.
