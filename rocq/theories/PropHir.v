(** Property C80 (searches through the [Hir]). Statements only; every proof is a lemma of the proof layer.
    [captures] and [matches] search the regex as it is written (Match.v), [hir_captures] and [hir_matches] the
    [Hir] to which the crate translates it (Compiled.v). *)
From Verif Require Import ProofOrder6.

(** * C80: simplifying a regex does not change whether it matches, but the order in which the readings of an
    expression are tried: what all branches of an alternation begin with is tried before them. *)
(** Any regex: whether it matches. [tame]: it has no group that the translation drops. *)
Theorem C80_matches : forall digits spaces words, tables_ok digits spaces words ->
  forall t r s, regex_new t = Done r -> tame digits spaces words r -> Forall scalar s ->
    hir_matches digits spaces words r s = matches (in_ranges digits) (in_ranges spaces) (in_ranges words) r s.
Proof. exact compiled_matches. Qed.
Print Assumptions C80_matches.
(** The regexes of expressions: what is captured is a reading. *)
Theorem C80_reading : forall s e t r, addressable s ->
  expression_parse s = RetOk e -> expression_regex s = XOk t r ->
  forall digits spaces words, tables_ok digits spaces words -> forall subject, Forall scalar subject ->
    let param := fun p => typed (in_ranges digits) (in_ranges spaces) (frag (par_input p)) in
    (hir_captures digits spaces words r subject = None <-> ~ exists v, means frag param e subject v) /\
    forall c, hir_captures digits spaces words r subject = Some c ->
      exists v, c = Some subject :: v /\ means frag param e subject v.
Proof. exact hir_reading. Qed.
Print Assumptions C80_reading.
(** If the readings are unique (C47), the same is captured. *)
Theorem C80_unique : forall s e t r, addressable s ->
  expression_parse s = RetOk e -> expression_regex s = XOk t r ->
  forall digits spaces words, tables_ok digits spaces words ->
    lucid frag (in_ranges digits) (in_ranges spaces) e -> forall subject, Forall scalar subject ->
    hir_captures digits spaces words r subject =
      captures (in_ranges digits) (in_ranges spaces) (in_ranges words) r subject.
Proof. exact hir_lucid. Qed.
Print Assumptions C80_unique.
(** The best reading is captured; the order is that of C49 except for alternations, whose branches follow what
    all of them begin with. *)
Theorem C80_order : forall s e t r, addressable s ->
  expression_parse s = RetOk e -> expression_regex s = XOk t r ->
  forall digits spaces words, tables_ok digits spaces words -> plain_digits (in_ranges digits) ->
    forall subject c, Forall scalar subject ->
    hir_captures digits spaces words r subject = Some c <->
    exists l, best_by frag (hir_prefers frag)
        (fun p => typed (in_ranges digits) (in_ranges spaces) (frag (par_input p))) e subject l /\
      c = Some subject :: List.concat (map snd l).
Proof. exact hir_takes_best. Qed.
Print Assumptions C80_order.
(** The order only matters if what all branches begin with has an optional: otherwise the same is captured as
    by the regex as it is written. *)
Theorem C80_unshared : forall s e t r, addressable s ->
  expression_parse s = RetOk e -> expression_regex s = XOk t r ->
  forall digits spaces words, tables_ok digits spaces words ->
    unshared (map_expression frag e) -> forall subject, Forall scalar subject ->
    hir_captures digits spaces words r subject =
      captures (in_ranges digits) (in_ranges spaces) (in_ranges words) r subject.
Proof. exact hir_same. Qed.
Print Assumptions C80_unshared.
(** Then it is the best reading in the order of C49. *)
Theorem C80_unshared_best : forall s e t r, addressable s ->
  expression_parse s = RetOk e -> expression_regex s = XOk t r ->
  forall digits spaces words, tables_ok digits spaces words ->
    unshared (map_expression frag e) -> plain_digits (in_ranges digits) ->
    forall subject c, Forall scalar subject ->
    hir_captures digits spaces words r subject = Some c <->
    exists l, best frag (fun p => typed (in_ranges digits) (in_ranges spaces) (frag (par_input p))) e subject l /\
      c = Some subject :: List.concat (map snd l).
Proof. exact hir_best. Qed.
Print Assumptions C80_unshared_best.

Definition digits : ranges := [(48, 57)].
Definition blanks : ranges := [(9, 13); (32, 32)].
Definition letters : ranges := [(48, 57); (65, 90); (95, 95); (97, 122)].
Definition written_order (e subject : str) : option (list (option str)) :=
  match expression_regex e with
  | XOk _ r => captures (in_ranges digits) (in_ranges blanks) (in_ranges letters) r subject
  | _ => None
  end.
Definition hir_order (e subject : str) : option (list (option str)) :=
  match expression_regex e with XOk _ r => hir_captures digits blanks letters r subject | _ => None end.
Example C80_tables : tables_ok digits blanks letters /\ plain_digits (in_ranges digits) /\ Forall scalar (s_ "x1e5").
Proof.
  split; [|split].
  - repeat (apply Forall_cons || apply Forall_nil); vm_compute; discriminate.
  - intros c H. cbn in H. repeat (destruct H as [<-|H]; [reflexivity|]). easy.
  - repeat (apply Forall_cons || apply Forall_nil); (split; [vm_compute; discriminate|]; intros [H _]; vm_compute in H; now apply H).
Qed.
(** The branches begin with the same optional "(1)", after the same text "x". As written, the search first
    tries the branch "x(1)" with and without the "1", and the float is "1e5". In the [Hir] the beginning is put
    before the alternation: its "1" is tried first, with both branches, and the float is "5". *)
Theorem C80_shared : exists s e t r subject,
  addressable s /\ expression_parse s = RetOk e /\ expression_regex s = XOk t r /\ Forall scalar subject /\
  hir_captures digits blanks letters r subject <>
    captures (in_ranges digits) (in_ranges blanks) (in_ranges letters) r subject.
Proof.
  assert (H : match expression_regex (s_ "x(1)/x(1)e{float}") with
    | XOk _ r => hir_captures digits blanks letters r (s_ "x1e5") <>
        captures (in_ranges digits) (in_ranges blanks) (in_ranges letters) r (s_ "x1e5")
    | _ => False
    end) by (vm_compute; discriminate).
  exists (s_ "x(1)/x(1)e{float}").
  destruct (expression_parse (s_ "x(1)/x(1)e{float}")) as [e| | |] eqn:E; [|vm_compute in E; discriminate E..].
  destruct (expression_regex (s_ "x(1)/x(1)e{float}")) as [t r| | | | | |] eqn:R; [|destruct H..].
  exists e, t, r, (s_ "x1e5"). split; [vm_compute; discriminate|]. split; [reflexivity|]. split; [reflexivity|].
  split; [apply C80_tables|exact H].
Qed.
Print Assumptions C80_shared.
Example C80_orders :
  written_order (s_ "x(1)/x(1)e{float}") (s_ "x1e5") = Some [Some (s_ "x1e5"); Some (s_ "1e5")] /\
  hir_order (s_ "x(1)/x(1)e{float}") (s_ "x1e5") = Some [Some (s_ "x1e5"); Some (s_ "5")].
Proof. vm_compute. easy. Qed.
(** What is tried for this alternation, as written and in the [Hir]. *)
Example C80_tried :
  let x := Char (c_ "x") in let one := Maybe (s_ "1") in let branches := [[x; one]; [x; one; Char (c_ "e")]] in
  (match expression_parse (s_ "x(1)/x(1)e{float}") with
   | RetOk (ExAlternation a :: _) => map (flat_map pieces) (map_alternation frag a) = branches /\
       alternation_candidates frag a = [s_ "x1"; s_ "x"; s_ "x1e"; s_ "xe"]
   | _ => False
   end) /\
  all_begin [x; one] [[]; [Char (c_ "e")]] branches /\
  each_with (candidates [x; one]) (flat_map candidates [[]; [Char (c_ "e")]]) = [s_ "x1"; s_ "x1e"; s_ "x"; s_ "xe"].
Proof.
  cbv zeta. split; [vm_compute; easy|]. split; [|reflexivity]. split; [reflexivity|]. intros [y H].
  inversion H as [|? ? [r Hr] _]; subst. discriminate Hr.
Qed.
(** The same text at the beginning of all branches does no harm, nor do different optionals. *)
Example C80_example :
  (exists e, expression_parse (s_ "x(1)/x(2)e{float}") = RetOk e /\ unshared (map_expression frag e)) /\
  written_order (s_ "x(1)/x(2)e{float}") (s_ "x1e5") = Some [Some (s_ "x1e5"); Some (s_ "1e5")] /\
  hir_order (s_ "x(1)/x(2)e{float}") (s_ "x1e5") = Some [Some (s_ "x1e5"); Some (s_ "1e5")].
Proof.
  split; [|vm_compute; easy].
  assert (H : match expression_parse (s_ "x(1)/x(2)e{float}") with
    | RetOk e => unspelled (map_expression frag e) =
        [OneOf [[Char (c_ "x"); Maybe (s_ "1")]; [Char (c_ "x"); Maybe (s_ "2"); Char (c_ "e")]]; Param (s_ "float")]
    | _ => False
    end) by (vm_compute; reflexivity).
  destruct (expression_parse (s_ "x(1)/x(2)e{float}")) as [e| | |]; [|destruct H..]. exists e. split; [reflexivity|].
  intros bs. rewrite H. intros [E|[E|[]]] (t & o & Hs); [|discriminate E]. injection E as <-.
  inversion Hs as [|? ? [l1 H1] Hs1]; subst. inversion Hs1 as [|? ? [l2 H2] _]; subst.
  destruct t as [|c [|c' t]]; cbn in H1, H2; congruence.
Qed.
