(** The theorems of PropExpand.v, in their final form. *)
From Coq Require Import PeanoNat.
From Verif Require Export ProofExpand3.

(** ** [{float}] and [f64::from_str] *)
Section Float.
  Context (digit : char -> bool).
  Lemma digits_ascii p : (forall c, In c p -> digit c = true <-> ascii_digit c) -> digits digit p <-> f64_digits p.
  Proof.
    intros H. unfold digits, f64_digits. rewrite !Forall_forall.
    split; intros Hp c Hc; specialize (Hp c Hc); now apply H.
  Qed.
  Lemma number_ascii p : (forall c, In c p -> digit c = true <-> ascii_digit c) -> number digit p <-> f64_digits1 p.
  Proof. intros H. unfold number, f64_digits1. rewrite (digits_ascii p H). tauto. Qed.
  Lemma sign_ascii s : (s = [] \/ In s [s_ "+"; s_ "-"]) <-> f64_sign s.
  Proof.
    unfold f64_sign. cbn [In]. split; intros H.
    - destruct H as [->|[<-|[<-|[]]]]; auto.
    - destruct H as [->|[->| ->]]; auto.
  Qed.
  Lemma lower_e c : lower c = c_ "e" <-> In c (s_ "eE").
  Proof.
    unfold lower. change (c_ "A") with 65. change (c_ "Z") with 90. change (c_ "e") with 101. change (s_ "eE") with [101; 69].
    cbn [In]. destruct (N.leb_spec 65 c), (N.leb_spec c 90); cbn [andb]; split; intros; lia.
  Qed.
  Lemma exponent_ascii x : (forall c, In c x -> digit c = true <-> ascii_digit c) ->
    exponent digit x <-> x = [] \/ f64_exp x.
  Proof.
    intros H. unfold exponent, f64_exp, signed. split.
    - intros [->|(e & y & -> & He & s & d & -> & Hs & Hd)]; [now left|]. right. exists [e], s, d.
      split; [reflexivity|]. split; [unfold in_any_case; cbn [map]; now rewrite (proj2 (lower_e e) He)|].
      split; [now apply sign_ascii|]. apply number_ascii; [|exact Hd]. intros c Hc. apply H.
      right. apply in_or_app. auto.
    - intros [->|(e & s & d & -> & He & Hs & Hd)]; [now left|]. right.
      unfold in_any_case in He. change (s_ "e") with [c_ "e"] in He. destruct e as [|e [|? ?]]; [discriminate He| |discriminate He]. injection He as He.
      exists e, (s ++ d). split; [reflexivity|]. split; [now apply lower_e|]. exists s, d.
      split; [reflexivity|]. split; [now apply sign_ascii|]. apply number_ascii; [|exact Hd]. intros c Hc. apply H.
      rewrite !in_app_iff. auto.
  Qed.
  Lemma mantissa_ascii m : (forall c, In c m -> digit c = true <-> ascii_digit c) ->
    mantissa digit m <->
      f64_digits1 m \/
       (exists a b, m = a ++ s_ "." ++ b /\ f64_digits1 a /\ f64_digits b) \/
       (exists a b, m = a ++ s_ "." ++ b /\ f64_digits a /\ f64_digits1 b).
  Proof.
    intros H. unfold mantissa. rewrite (number_ascii m H).
    assert (Ha : forall a b, m = a ++ s_ "." ++ b ->
      number digit (a ++ b) <-> (f64_digits1 a /\ f64_digits b) \/ (f64_digits a /\ f64_digits1 b)).
    { intros a b ->. rewrite number_ascii.
      - unfold f64_digits1, f64_digits. rewrite Forall_app. destruct a, b; cbn; intuition congruence.
      - intros c Hc. apply H. rewrite !in_app_iff in *. tauto. }
    split.
    - intros [Hm|(a & b & E & Hm)]; [now left|]. right. apply (Ha a b E) in Hm as [Hm|Hm]; [left|right]; exists a, b; tauto.
    - intros [Hm|[(a & b & E & Hm)|(a & b & E & Hm)]]; [now left| |]; right; exists a, b; (split; [exact E|]); apply (Ha a b E); tauto.
  Qed.
  Lemma float_f64 p : (forall c, In c p -> digit c = true <-> ascii_digit c) ->
    f64_string p <-> float_string digit p \/ f64_special p.
  Proof.
    intros H. split.
    - intros (s & b & -> & Hs & Hb).
      assert (Hn : f64_number b -> float_string digit (s ++ b)).
      { intros (m & x & -> & Hx & Hm). exists s, (m ++ x). split; [reflexivity|]. split; [now apply sign_ascii|].
        right; right. exists m, x. split; [reflexivity|].
        split; [apply mantissa_ascii; [|exact Hm]|apply exponent_ascii; [|exact Hx]];
          intros c Hc; apply H; rewrite !in_app_iff; auto. }
      destruct (list_eq_dec N.eq_dec b (s_ "inf")) as [->|N1];
        [left; exists s, (s_ "inf"); split; [reflexivity|]; split; [now apply sign_ascii|now left]|].
      destruct (list_eq_dec N.eq_dec b (s_ "NaN")) as [->|N2];
        [left; exists s, (s_ "NaN"); split; [reflexivity|]; split; [now apply sign_ascii|right; now left]|].
      destruct Hb as [Hb|[Hb|[Hb|Hb]]]; [right|right|right|left; now apply Hn]; exists s, b; auto 10.
    - intros [(s & b & -> & Hs & Hb)|(s & b & -> & Hs & _ & _ & Hb)].
      + exists s, b. split; [reflexivity|]. split; [now apply sign_ascii|].
        destruct Hb as [->|[->|(m & x & -> & Hm & Hx)]]; [now left|right; right; now left|].
        right; right; right. exists m, x. split; [reflexivity|].
        split; [apply exponent_ascii; [|exact Hx]|apply mantissa_ascii; [|exact Hm]];
          intros c Hc; apply H; rewrite !in_app_iff; auto.
      + exists s, b. tauto.
  Qed.
End Float.

Lemma regex_matches_meaning s e t r : addressable s -> expression_parse s = RetOk e -> expression_regex s = XOk t r ->
  forall digit space word subject,
    is_match digit space word r subject <->
    exists v, means frag (fun p => typed digit space (frag (par_input p))) e subject v.
Proof.
  intros Hs H Hr digit space word subject. destruct (regex_inv s e t r Hs H Hr) as (He & -> & ->).
  now apply is_match_builtin.
Qed.
Lemma regex_parsed s t r : addressable s -> expression_regex s = XOk t r ->
  exists e, expression_parse s = RetOk e /\ all_built_in frag e /\ t = builtin_regex frag e /\ r = re_of frag e.
Proof.
  intros Hs Hr. destruct (regex_total s Hs) as [(x & _ & E)|[(e & Hp & Hb & E)|(e1 & p & e2 & _ & _ & _ & E)]]; try congruence.
  exists e. rewrite E in Hr. injection Hr as <- <-. auto.
Qed.
Lemma regex_anchored s t r : addressable s -> expression_regex s = XOk t r ->
  forall digit space word pre m post c, rm digit space word r pre m post c -> pre = [] /\ post = [].
Proof.
  intros Hs Hr digit space word pre m post c Hm. destruct (regex_parsed s t r Hs Hr) as (e & Hp & He & -> & ->).
  apply rm_builtin in Hm as (? & ? & _); auto.
Qed.
Lemma regex_compiles s : addressable s ->
  (exists t r, expression_regex s = XOk t r /\ regex_new t = Done r /\ NoDup (group_names r)) <->
  exists e, expression_parse s = RetOk e /\ Forall (fun p => built_in (frag (par_input p))) (parameters e).
Proof.
  intros Hs. split.
  - intros (t & r & H & _). destruct (regex_parsed s t r Hs H) as (e & Hp & He & _). exists e. auto.
  - intros (e & Hp & He). exists (builtin_regex frag e), (re_of frag e).
    split; [now apply regex_ok|]. pose proof (parsed_ids s e Hs Hp) as Hn.
    split; [now apply regex_new_builtin|]. rewrite names_builtin. apply nodup_names. now rewrite <- ids_parameters.
Qed.
Lemma regex_outcomes s : addressable s ->
  (exists er, expression_parse s = RetErr er /\ expression_regex s = XParsing er) \/
  (exists t r, expression_regex s = XOk t r) \/
  (exists i, expression_regex s = XExpansion (NotFound i)).
Proof.
  intros Hs. destruct (regex_total s Hs) as [H|[(e & Hp & Hb & E)|(e1 & p & e2 & _ & _ & _ & E)]]; eauto 6.
Qed.
Lemma regex_groups s e t r : addressable s -> expression_parse s = RetOk e -> expression_regex s = XOk t r ->
  exists l, Forall2 (parameter_groups frag) (parameters e) l /\ groups r = List.concat l.
Proof.
  intros Hs H Hr. destruct (regex_inv s e t r Hs H Hr) as (He & _ & ->).
  exists (map (fun p => flat_map groups (builtin_re frag p)) (parameters e)). split.
  - induction (parameters e); constructor; [apply groups_builtin_spec|assumption].
  - unfold re_of. rewrite groups_by. rewrite flat_map_concat_map. reflexivity.
Qed.
Lemma regex_captures s e t r : addressable s -> expression_parse s = RetOk e -> expression_regex s = XOk t r ->
  forall digit space word pre m post c,
    rm digit space word r pre m post c <->
    pre = [] /\ post = [] /\ means frag (fun p => typed digit space (frag (par_input p))) e m c.
Proof.
  intros Hs H Hr digit space word pre m post c. destruct (regex_inv s e t r Hs H Hr) as (He & _ & ->).
  now apply rm_builtin.
Qed.
Lemma regex_not_found s i : addressable s ->
  expression_regex s = XExpansion (NotFound i) <->
  exists e1 p e2, expression_parse s = RetOk (e1 ++ ExParameter p :: e2) /\ i = par_input p /\
    Forall (fun q => built_in (frag (par_input q))) (parameters e1) /\ ~ built_in (frag (par_input p)).
Proof.
  intros Hs. split.
  - intros H. destruct (regex_total s Hs) as [(x & _ & E)|[(e & Hp & Hb & E)|(e1 & p & e2 & Hp & Hb & Hn & E)]]; try congruence.
    exists e1, p, e2. assert (i = par_input p) as -> by congruence. auto.
  - intros (e1 & p & e2 & Hp & -> & Hb & Hn). now apply (regex_unknown s e1 p e2).
Qed.

Lemma typed_iff digit space n s :
  In n [s_ "int"; s_ "float"; s_ "word"; s_ "string"; []] ->
  (exists v, typed digit space n s v) <->
  (n = s_ "int" /\ int_string digit s) \/ (n = s_ "float" /\ float_string digit s) \/
  (n = s_ "word" /\ word_string space s) \/
  (n = s_ "string" /\ exists q b, (q = quote1 \/ q = quote2) /\ s = [q] ++ b ++ [q] /\ quoted q b) \/
  (n = [] /\ ~ In newline s).
Proof.
  intros _. split.
  - intros [v H]. destruct H as [p H|p H|p H|b H|b H|p H].
    + now left.
    + right; now left.
    + right; right; now left.
    + right; right; right; left. split; [reflexivity|]. exists quote2, b. auto.
    + right; right; right; left. split; [reflexivity|]. exists quote1, b. auto.
    + right; right; right; right. auto.
  - intros [[-> H]|[[-> H]|[[-> H]|[[-> (q & b & [-> | ->] & -> & H)]|[-> H]]]]].
    + eexists. now constructor.
    + eexists. now constructor.
    + eexists. now constructor.
    + eexists. now apply typed_string1.
    + eexists. now apply typed_string2.
    + eexists. now constructor.
Qed.
Lemma int_regex : exists u r, expression_regex (s_ "{int}") = XOk u r /\
  forall digit space word s, is_match digit space word r s <-> int_string digit s.
Proof.
  destruct (parameter_regex (s_ "int")) as (u & r & E & H); [cbn; auto|]. exists u, r. split; [exact E|]. intros.
  rewrite H, typed_iff by (cbn; auto). split; [intros [[N X]|[[N X]|[[N X]|[[N X]|[N X]]]]]; discriminate N || exact X|intros X; left; auto].
Qed.
Lemma float_regex_means : exists u r, expression_regex (s_ "{float}") = XOk u r /\
  forall digit space word s, is_match digit space word r s <-> float_string digit s.
Proof.
  destruct (parameter_regex (s_ "float")) as (u & r & E & H); [cbn; auto|]. exists u, r. split; [exact E|]. intros.
  rewrite H, typed_iff by (cbn; auto). split; [intros [[N X]|[[N X]|[[N X]|[[N X]|[N X]]]]]; discriminate N || exact X|intros X; right; left; auto].
Qed.
Lemma word_regex_means : exists u r, expression_regex (s_ "{word}") = XOk u r /\
  forall digit space word s, is_match digit space word r s <-> word_string space s.
Proof.
  destruct (parameter_regex (s_ "word")) as (u & r & E & H); [cbn; auto|]. exists u, r. split; [exact E|]. intros.
  rewrite H, typed_iff by (cbn; auto). split; [intros [[N X]|[[N X]|[[N X]|[[N X]|[N X]]]]]; discriminate N || exact X|intros X; right; right; left; auto].
Qed.
Lemma string_regex_means : exists u r, expression_regex (s_ "{string}") = XOk u r /\
  forall digit space word s c, rm digit space word r [] s [] c <->
    (exists b, quoted quote2 b /\ s = s_ """" ++ b ++ s_ """" /\ c = [Some b; None]) \/
    (exists b, quoted quote1 b /\ s = s_ "'" ++ b ++ s_ "'" /\ c = [None; Some b]).
Proof.
  set (e := [ExParameter (mkParameter (mkspan 1 1 (s_ "string")) 0)]).
  assert (Hp : expression_parse (s_ "{string}") = RetOk e) by (vm_compute; reflexivity).
  assert (Ha : addressable (s_ "{string}")) by easy.
  assert (He : all_built_in frag e) by (constructor; [cbn; auto 6|constructor]).
  exists (builtin_regex frag e), (re_of frag e). split; [now apply regex_ok|].
  intros digit space word s c. rewrite rm_builtin by exact He. unfold e. rewrite means_parameter. cbn [frag par_input].
  split.
  - intros (_ & _ & H). inversion H; subst; [left|right]; exists b; auto.
  - intros [(b & H & -> & ->)|(b & H & -> & ->)]; (split; [reflexivity|]; split; [reflexivity|]).
    + exact (typed_string2 digit space b H).
    + exact (typed_string1 digit space b H).
Qed.
Lemma anonymous_regex_means : exists u r, expression_regex (s_ "{}") = XOk u r /\
  forall digit space word s, is_match digit space word r s <-> ~ In newline s.
Proof.
  destruct (parameter_regex []) as (u & r & E & H); [cbn; auto 6|]. exists u, r. split; [exact E|]. intros.
  rewrite H, typed_iff by (cbn; auto 6). split; [intros [[N X]|[[N X]|[[N X]|[[N X]|[N X]]]]]; discriminate N || exact X|intros X; right; right; right; right; auto].
Qed.
Lemma literal_text t : t <> [] -> addressable (escaped t) ->
  expression_parse (escaped t) = RetOk [ExText (mkspan 0 1 (escaped t))] /\
  exists u r, expression_regex (escaped t) = XOk u r /\
    forall digit space word s, is_match digit space word r s <-> s = t.
Proof. intros Ht Ha. split; [now apply literal_parses|now apply literal_regex]. Qed.
