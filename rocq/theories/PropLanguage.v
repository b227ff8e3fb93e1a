(** Property C32, continued: which texts an expression matches, whatever the matchers. Statements only.
    The matchers may have groups that [regex-syntax] drops ([(a){0}]) or changes; what is captured is then another
    matter, but the texts are the same. [prints_meaning]: see C35. *)
From Verif Require Import ProofLanguage.

Theorem C32_texts : forall digits spaces words to_string get, tables_ok digits spaces words -> prints_meaning to_string ->
  forall s e, expression_parse s = RetOk e -> Forall (custom_valid frag get (fun _ => True)) (parameters e) ->
  (regex_with_parameters digits spaces words to_string get s = XRegex \/
   exists t r, regex_with_parameters digits spaces words to_string get s = XOk t r) /\
  forall t r, regex_with_parameters digits spaces words to_string get s = XOk t r -> forall pre m post, Forall scalar m ->
    (exists c, rm (in_ranges digits) (in_ranges spaces) (in_ranges words) r pre m post c) <->
    pre = [] /\ post = [] /\ exists c, means_in frag (custom_type digits spaces words frag get) e [] m [] c.
Proof. exact any_matchers. Qed.
(** It compiles if no group with a repetition around has a name of its own. *)
Theorem C32_compiles : forall digits spaces words to_string get, tables_ok digits spaces words -> prints_meaning to_string ->
  forall s e, addressable s -> expression_parse s = RetOk e ->
  Forall (custom_valid frag get (fun r => Forall (fun x => snd x = true \/ fst x = None) (marks r))) (parameters e) ->
  exists t r, regex_with_parameters digits spaces words to_string get s = XOk t r.
Proof. exact any_unnamed. Qed.
Print Assumptions C32_texts. Print Assumptions C32_compiles.
(** The group [(b)] is dropped, [(^)] comes to light, and [(a)] below the star is kept. *)
Definition ex32_get : provider span := hash_map_get frag [(s_ "p", s_ "(?P<n>x)(a)*(b){0}(\A|\z|c{0})+")].
Example C32_example_texts : exists e p,
  expression_parse (s_ "y{p}z") = RetOk e /\ parameters e = [p] /\
  custom_valid frag ex32_get (fun r => Forall (fun x => snd x = true \/ fst x = None) (marks r)) p /\
  match regex_with_parameters [(48, 57)] [(32, 32)] [(97, 122)] (show true) ex32_get (s_ "y{p}z") with
  | XOk t r => t = s_ "^y(?:(?:(?P<__0_0>x)(a)*(?P<__0_1>(?:\A|\z|(?:)))))z$" /\ groups r = [Some (s_ "__0_0"); None; Some (s_ "__0_1")]
  | _ => False end.
Proof.
  eexists. eexists. split; [vm_compute; reflexivity|]. split; [vm_compute; reflexivity|]. split.
  - eexists. split; [vm_compute; reflexivity|]. apply Forall_forall. intros x Hx. vm_compute in Hx.
    repeat (destruct Hx as [<- |Hx]; [vm_compute; auto|]). destruct Hx.
  - vm_compute. easy.
Qed.
