(** Property C71 (regex syntax). Statements only. *)
From Verif Require Import ProofSyntax2.

(** * C71: the parser of regexes in the model reads exactly the grammar of SpecSyntax.v. *)
Theorem C71_syntax : forall t r, parse_syntax t = Done r <-> alternatives t r.
Proof. exact parse_iff. Qed.
(** [Regex::new]: the grammar, and no name for two groups. *)
Theorem C71_regex : forall t r, regex_new t = Done r <-> regex_text t r.
Proof. exact regex_new_iff. Qed.
(** The grammar is unambiguous. *)
Theorem C71_unambiguous : forall t r r', alternatives t r -> alternatives t r' -> r = r'.
Proof. exact alternatives_unique. Qed.
(** Whatever the outcome of [Expression::regex] and [regex_with_parameters], a regex that is returned is one of the grammar. *)
Theorem C71_expansion : forall digits spaces words to_string get s t r,
  regex_with_parameters digits spaces words to_string get s = XOk t r -> regex_text t r.
Proof. exact expansion_text. Qed.
Print Assumptions C71_syntax. Print Assumptions C71_regex. Print Assumptions C71_unambiguous. Print Assumptions C71_expansion.

Example C71_example :
  let t := s_ "^(?<n>a|[^]-a-z\d-]{2,3}?)+\.(?:)??\f$" in
  exists r, regex_text t r /\ groups r = [Some (s_ "n")] /\
    r = mk_cat [RLook LStart;
      RRep 1 None true (RCap (Some (s_ "n")) (RAlt (RLit (c_ "a")) (RRep 2 (Some 3) false (RClass (mkClass true
        [CRange (c_ "]") (c_ "]"); CRange (c_ "-") (c_ "-"); CRange (c_ "a") (c_ "z"); CPerl false PDigit; CRange (c_ "-") (c_ "-")])))));
      RLit (c_ "."); RRep 0 (Some 1) false REmpty; RLit 12; RLook LEnd].
Proof.
  eexists. split; [|split; [|reflexivity]].
  - apply C71_regex. vm_compute. reflexivity.
  - vm_compute. reflexivity.
Qed.
(** Not regexes: a name used twice, an operator without operand, a range backwards, a count too high. *)
Example C71_example_not : forall t r,
  In t [s_ "(?<n>a)(?<n>b)"; s_ "a|*"; s_ "[z-a]"; s_ "a{4294967296}"; s_ "(a"; s_ "a)"; s_ "\8"; s_ "[]"] -> ~ regex_text t r.
Proof.
  intros t r H Hr. apply C71_regex in Hr. cbn [In] in H. repeat destruct H as [<-|H]; try discriminate Hr. exact H.
Qed.
(** Word boundaries. *)
Example C71_example_word :
  regex_text (s_ "\b{2}a\b*?\B(?:\b)+") (mk_cat [RRep 2 (Some 2) true (RLook LWord); RLit (c_ "a"); RRep 0 None false (RLook LWord); RLook LNotWord;
    RRep 1 None true (RLook LWord)]) /\ regex_new (s_ "\b{start}") = Unsupported /\ regex_new (s_ "(?:\b){start}") = Invalid.
Proof. split; [apply C71_regex; vm_compute; reflexivity|]. now split. Qed.
(** Hexadecimal escapes. *)
Example C71_example_hex :
  regex_text (s_ "\x41[\u{62}-\U00000064\x5D]{2}\u{01F600}[\x61&&b]") (mk_cat [RLit (c_ "A");
    RRep 2 (Some 2) true (RClass (mkClass false [CRange (c_ "b") (c_ "d"); CRange (c_ "]") (c_ "]")])); RLit 128512; RClass (mkClass false [])]) /\
  forall t r, In t [s_ "\x4"; s_ "\x{}"; s_ "\x{D800}"; s_ "\u12"; s_ "\U00110000"; s_ "\x{4g}"; s_ "[\x4]"; s_ "\x{41"; s_ "\x_1"] -> ~ regex_text t r.
Proof.
  split; [apply C71_regex; vm_compute; reflexivity|].
  intros t r H Hr. apply C71_regex in Hr. cbn [In] in H. repeat destruct H as [<-|H]; try discriminate Hr. exact H.
Qed.
