(** Property C82 (searches through expressions with custom parameters). Statements only; every proof is a lemma of
    the proof layer. [hir_captures] searches the [Hir] to which the crate translates a regex (Compiled.v). *)
From Verif Require Import ProofPrefer.

(** * C82: a search takes the best reading, and among the pieces for a custom parameter those are better that a
    search with its matcher alone tries earlier. *)
(** [exactly]: no group of a matcher is dropped by the translation, and matchers with groups have no lazy exact
    count (C81); either printer of C35. *)
Theorem C82_order : forall digits spaces words, tables_ok digits spaces words ->
  forall wrap get s e t r, addressable s -> expression_parse s = RetOk e ->
    Forall (custom_valid frag get (exactly digits spaces words wrap)) (parameters e) ->
    regex_with_parameters digits spaces words (show wrap) get s = XOk t r ->
    plain_digits (in_ranges digits) -> forall subject c, Forall scalar subject ->
    hir_captures digits spaces words r subject = Some c <->
    exists l, best_in frag (tried digits spaces words frag get) (custom_prefers digits spaces words frag get) e [] subject l /\
      c = Some subject :: List.concat (map snd l).
Proof. exact custom_takes_best. Qed.
Print Assumptions C82_order.
(** What the search with a matcher tries is what the matcher means (C35), and each piece that it means is
    tried. *)
Theorem C82_tried : forall digits spaces words, tables_ok digits spaces words ->
  forall (I : Type) (text : I -> str) get p pre m post, custom_valid text get (tame digits spaces words) p -> Forall scalar m ->
    (forall v, tried digits spaces words text get p pre m post v -> custom_type digits spaces words text get p pre m post v) /\
    forall v, custom_type digits spaces words text get p pre m post v ->
      exists v', tried digits spaces words text get p pre m post v'.
Proof. exact (fun digits spaces words Htab I => @tried_meant digits spaces words Htab I). Qed.
Print Assumptions C82_tried.
(** With a lazy exact count it is not so: what is printed is simplified further, and tried in another order. *)
Theorem C82_lazy_count : forall digits spaces words, exists get s e t r subject c,
  addressable s /\ expression_parse s = RetOk e /\
  Forall (custom_valid frag get (tame digits spaces words)) (parameters e) /\
  regex_with_parameters digits spaces words (show true) get s = XOk t r /\ Forall scalar subject /\
  hir_captures digits spaces words r subject = Some c /\
  ~ exists l, best_in frag (tried digits spaces words frag get) (custom_prefers digits spaces words frag get) e [] subject l /\
    c = Some subject :: List.concat (map snd l).
Proof. exact lazy_count_order. Qed.
Print Assumptions C82_lazy_count.

Definition digits : ranges := [(48, 57)].
Definition blanks : ranges := [(9, 13); (32, 32)].
Definition letters : ranges := [(48, 57); (65, 90); (95, 95); (97, 122)].
Definition searched (get : provider span) (e subject : str) : option (list (option str)) :=
  match regex_with_parameters digits blanks letters (show true) get e with
  | XOk _ r => hir_captures digits blanks letters r subject
  | _ => None
  end.
Definition matchers (i : span) : option str :=
  if str_eqb (frag i) (s_ "p") then Some (s_ "(to|ton)|x(e)?") else if str_eqb (frag i) (s_ "q") then Some (s_ "a??[a-z]") else None.
(** [ton5] is read as [to] and [n5], though [ton] and [5] would do; [xe] as [xe] and nothing; [ab] as [a] and [b],
    as [a??] is lazy. *)
Example C82_first : searched matchers (s_ "{p}{}") (s_ "ton5") = Some [Some (s_ "ton5"); Some (s_ "to"); None; Some (s_ "n5")].
Proof. vm_compute. reflexivity. Qed.
Example C82_second : searched matchers (s_ "{p}{}") (s_ "xe") = Some [Some (s_ "xe"); None; Some (s_ "e"); Some []].
Proof. vm_compute. reflexivity. Qed.
Example C82_lazy : searched matchers (s_ "{q}{}") (s_ "ab") = Some [Some (s_ "ab"); Some (s_ "a"); Some (s_ "b")].
Proof. vm_compute. reflexivity. Qed.
Example C82_tries : tries digits blanks letters (s_ "(to|ton)|x(e)?") [] (s_ "ton5") =
  [(s_ "to", [Some (s_ "to"); None]); (s_ "ton", [Some (s_ "ton"); None])].
Proof. vm_compute. reflexivity. Qed.
Example C82_exactly : exists e, expression_parse (s_ "{p}{q} {int}") = RetOk e /\ (List.length (parameters e) = 3)%nat /\
  Forall (custom_valid frag matchers (exactly digits blanks letters false)) (parameters e).
Proof.
  eexists. split; [vm_compute; reflexivity|]. split; [reflexivity|]. constructor; [|constructor; [|constructor; [|constructor]]].
  - eexists. split; [vm_compute; reflexivity|]. split.
    { cbn. repeat split. right. split; [discriminate|]. exists [], (s_ "e"), [], [Some (s_ "e")].
      split; [discriminate|]. split; [repeat constructor; vm_compute; intuition discriminate|]. repeat constructor. }
    intros _. split; [vm_compute; reflexivity|right; vm_compute; reflexivity].
  - eexists. split; [vm_compute; reflexivity|]. split; [cbn; repeat split; now left|]. discriminate.
  - cbn. auto.
Qed.
