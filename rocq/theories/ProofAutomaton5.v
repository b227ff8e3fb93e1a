(** Searches with the regex of an expression take a number of turns linear in the expression and in the subject. *)
From Verif Require Export ProofAutomaton4 ProofMatch4 ProofPaths2.
Require Import Lia PeanoNat.

Lemma turns_more prog start subject n : forall c x m, turns prog start subject n c = Some x -> (n <= m)%nat -> turns prog start subject m c = Some x.
Proof.
  induction n as [|n IH]; intros c x m; [discriminate|]. destruct m as [|m]; [lia|]. cbn. destruct (turn prog start subject c) as [c'|y]; [|easy].
  intros H Hm. apply IH; [exact H|lia].
Qed.
Lemma automaton_more digit space word r s n m x : automaton_captures digit space word r s n = Some x -> (n <= m)%nat ->
  automaton_captures digit space word r s m = Some x.
Proof.
  unfold automaton_captures, backtrack. intros H Hm. destruct (turns _ _ _ n _) as [y|] eqn:E; [|discriminate].
  now rewrite (turns_more _ _ _ _ _ _ _ E Hm).
Qed.

Lemma weight_parameter p : built_in (frag (par_input p)) ->
  (list_sum (map (weight 3) (builtin_re frag p)) <= 6 * List.length (src_single (ExParameter (map_parameter frag p))))%nat.
Proof.
  intros Hb. unfold builtin_re. cbn [src_single map_parameter par_input map]. rewrite list_sum_cons, !app_length. change (list_sum []) with 0%nat.
  change (name frag p) with (frag (par_input p)).
  destruct Hb as [Hb|[Hb|[Hb|[Hb|[Hb|[]]]]]]; rewrite <- Hb.
  - vm_compute. lia.
  - vm_compute. lia.
  - vm_compute. lia.
  - change (str_eqb (s_ "string") (s_ "int")) with false. change (str_eqb (s_ "string") (s_ "float")) with false.
    change (str_eqb (s_ "string") (s_ "word")) with false. change (str_eqb (s_ "string") (s_ "string")) with true.
    cbv iota. change (weight 3 (re_string (par_id p))) with 31%nat. cbn [s_ List.length]. lia.
  - vm_compute. lia.
Qed.
Lemma weight_single x : wf_single (map_single frag x) -> (forall p, x = ExParameter p -> built_in (frag (par_input p))) ->
  (list_sum (map (weight 3) (re_single frag (builtin_re frag) x)) <= 6 * List.length (src_single (map_single frag x)))%nat.
Proof.
  destruct x as [a|o|p|t|t]; intros Hw Hp; cbn [re_single map_single src_single map].
  - destruct Hw as [Hl _]. pose proof (weight_alternation a) as H. unfold map_alternation in Hl. rewrite map_length in Hl.
    specialize (H Hl). cbn [src_single] in H. rewrite list_sum_cons. change (list_sum []) with 0%nat. lia.
  - pose proof (weight_optional frag 3 o). rewrite list_sum_cons, !app_length. change (list_sum []) with 0%nat. change (List.length (s_ "(")) with 1%nat.
    change (List.length (s_ ")")) with 1%nat. cbn [map_optional opt_input]. lia.
  - apply weight_parameter. now apply Hp.
  - pose proof (weight_text frag 3 t). lia.
  - pose proof (weight_text frag 3 t). lia.
Qed.
Lemma regex_weight s t r : addressable s -> expression_regex s = XOk t r -> (weight 3 r <= 6 * List.length s + 2)%nat.
Proof.
  intros Hs H. destruct (regex_total s Hs) as [(x & _ & E)|[(e & Hp & Hb & E)|(e1 & p & e2 & _ & _ & _ & E)]]; try congruence.
  rewrite E in H. injection H as _ <-. destruct (parsed_wf s e Hs Hp) as [[Hw _] Hsrc].
  unfold re_of, re_by. rewrite weight_cat. cbn [map]. rewrite map_app, list_sum_cons, list_sum_app. cbn [weight map]. rewrite list_sum_cons. change (list_sum []) with 0%nat.
  enough (H : (list_sum (map (weight 3) (flat_map (re_single frag (builtin_re frag)) e)) <= 6 * List.length s)%nat) by lia.
  rewrite <- Hsrc. unfold source, map_expression. clear - Hw Hb. unfold all_built_in in Hb. induction e as [|x e IH]; cbn [flat_map map List.concat]; [cbn; lia|].
  rewrite map_app, list_sum_app, app_length. inversion_clear Hw as [|? ? H1 H2]. change (x :: e) with ([x] ++ e) in Hb. rewrite parameters_app, Forall_app in Hb.
  destruct Hb as [Hx He]. specialize (IH He H2). pose proof (weight_single x H1). enough (forall p, x = ExParameter p -> built_in (frag (par_input p))) by (specialize (H H0); lia).
  intros p ->. cbn in Hx. now inversion_clear Hx.
Qed.
Lemma weight_mono r : (weight 1 r <= weight 3 r)%nat.
Proof.
  induction r as [| | | | |min max g r IH|n r IH|a IHa b IHb|a IHa b IHb]; cbn [weight]; try lia. now apply rep_weight_mono.
Qed.
Lemma enough_turns r w n m : (weight 1 r <= w)%nat -> (w <= 6 * n + 2)%nat ->
  forall digit space word, (2 * (S (List.length (program digit space word r)) * S m) <= 12 * S n * S m)%nat.
Proof.
  intros H1 H2 digit space word. pose proof (program_fit digit space word r).
  assert (H3 : (S (List.length (program digit space word r)) <= 6 * S n)%nat) by lia.
  apply (Nat.mul_le_mono_r _ _ (S m)) in H3. lia.
Qed.
(** As written. *)
Lemma expression_search s t r : addressable s -> expression_regex s = XOk t r -> forall digit space word subject,
  automaton_captures digit space word r subject (12 * S (List.length s) * S (List.length subject)) = Some (captures digit space word r subject).
Proof.
  intros Hs Hr digit space word subject. pose proof (regex_loops s t r Hs Hr digit space word) as Hl. apply proper_moving in Hl.
  eapply automaton_more; [now apply automaton_finds|]. eapply enough_turns; [apply weight_mono|]. now apply (regex_weight s t).
Qed.
(** As compiled. *)
Lemma expression_ok s t r : expression_regex s = XOk t r -> re_ok r.
Proof.
  unfold expression_regex, regex_by. destruct (expression_parse s) as [e| | |]; try discriminate.
  destruct (collect_result _) as [u|[]]; try discriminate. destruct (regex_new u) as [x| |] eqn:E; try discriminate. intros H. inversion H; subst.
  apply regex_new_inv in E as [E _]. now apply parsed_ok in E.
Qed.
Lemma compiled_search digits spaces words : tables_ok digits spaces words -> forall s t r, addressable s -> expression_regex s = XOk t r -> forall subject,
  automaton_captures (in_ranges digits) (in_ranges spaces) (in_ranges words) (compiled digits spaces words r) subject
    (12 * S (List.length s) * S (List.length subject)) = Some (hir_captures digits spaces words r subject).
Proof.
  intros Htab s t r Hs Hr subject. pose proof (expression_ok s t r Hr) as Hok. unfold hir_captures.
  pose proof (regex_loops s t r Hs Hr (in_ranges digits) (in_ranges spaces) (in_ranges words)) as Hl. apply proper_moving in Hl.
  eapply automaton_more; [apply automaton_finds; now apply compiled_moving|]. eapply enough_turns; [now apply compiled_weight|]. now apply (regex_weight s t).
Qed.

(** ** Any regex *)
Lemma automaton_answers digit space word r s : exists x,
  automaton_captures digit space word r s (2 * (S (List.length (program digit space word r)) * S (List.length s))) = Some x /\
  leftmost_answer digit space word r s x.
Proof.
  destruct (automaton_ends digit space word r s) as [x Hx]. exists x. split; [exact Hx|]. apply automaton_right in Hx. destruct x as [c|]; [exact Hx|].
  intros pre mid post caps Hs Hr. apply Hx. now exists pre, mid, post, caps.
Qed.
Lemma compiled_finds digits spaces words : tables_ok digits spaces words -> forall t r, parse_syntax t = Done r ->
  moving_loops (in_ranges digits) (in_ranges spaces) (in_ranges words) r -> forall s,
  exists n, automaton_captures (in_ranges digits) (in_ranges spaces) (in_ranges words) (compiled digits spaces words r) s n =
    Some (hir_captures digits spaces words r s).
Proof.
  intros Htab t r Hr Hm s. eexists. unfold hir_captures. apply automaton_finds, compiled_moving; [exact Htab|now apply (parsed_ok t)|exact Hm].
Qed.
(** What loops around nothing do is not what the order of Match.v says: [(?:(|a)(|b))+c] on [abc]. *)
Lemma still_loops : exists t r s n x, parse_syntax t = Done r /\
  automaton_captures (fun _ => false) (fun _ => false) (fun _ => false) r s n = Some x /\ x <> captures (fun _ => false) (fun _ => false) (fun _ => false) r s.
Proof.
  exists (s_ "(?:(|a)(|b))+c"), (ProofTypes.get (parse_syntax (s_ "(?:(|a)(|b))+c"))), (s_ "abc"), 100%nat, (Some [Some (s_ "abc"); Some (s_ "a"); Some (s_ "b")]).
  vm_compute. split; [reflexivity|]. split; [reflexivity|discriminate].
Qed.
