(** Searches by an automaton with the regex of an expression with custom parameters. *)
From Verif Require Export ProofAutomaton5 ProofCaptures.
Require Import Lia PeanoNat.

Section Custom.
  Context (digits spaces words : ranges) (to_string : hir -> str) (get : provider span).
  Notation type := (custom_type digits spaces words frag get).
  Notation whole := (regex_with_parameters digits spaces words to_string get).
  Notation run := (automaton_runs (in_ranges digits) (in_ranges spaces) (in_ranges words)).
  Context (Htab : tables_ok digits spaces words) (Hp : prints_meaning to_string).

  Lemma automaton_custom s e t r : expression_parse s = RetOk e ->
    Forall (custom_valid frag get (tame digits spaces words)) (parameters e) -> whole s = XOk t r ->
    forall subject, Forall scalar subject ->
      (run r subject = Some None /\ ~ exists vs, readings frag type e [] subject [] vs) \/
      exists vs, run r subject = Some (Some (Some subject :: List.concat vs)) /\ readings frag type e [] subject [] vs.
  Proof.
    intros He Hv Hr subject Hs. destruct (whole_means digits spaces words to_string get Htab Hp s e He Hv) as (l & _ & _ & Hm).
    destruct (Hm t r Hr) as [_ Hm']. unfold automaton_runs. destruct (automaton_answers (in_ranges digits) (in_ranges spaces) (in_ranges words) r subject) as (x & Hx & Ha). rewrite Hx.
    destruct x as [c|]; cbn [leftmost_answer] in Ha.
    - right. destruct Ha as (pre & m & post & v & E & Hrm & -> & _). apply Hm' in Hrm as (-> & -> & Hrm); [|rewrite E, !Forall_app in Hs; tauto].
      cbn [app] in E. rewrite app_nil_r in E. subst m. apply means_readings in Hrm as (vs & Hrm & ->). now exists vs.
    - left. split; [reflexivity|]. intros [vs Hrd]. apply (Ha [] subject [] (List.concat vs)); [cbn; now rewrite app_nil_r|].
      apply Hm'; [exact Hs|]. split; [reflexivity|]. split; [reflexivity|]. apply means_readings. now exists vs.
  Qed.

  Lemma custom_ok s t r : whole s = XOk t r -> re_ok r.
  Proof.
    unfold regex_with_parameters, regex_by. destruct (expression_parse s) as [e| | |]; try discriminate.
    destruct (collect_result _) as [u|[]]; try discriminate. destruct (regex_new u) as [x| |] eqn:E; try discriminate. intros H. inversion H; subst.
    apply regex_new_inv in E as [E _]. now apply parsed_ok in E.
  Qed.
  (** Whatever the matchers, as long as they are valid, and as compiled. *)
  Lemma automaton_any s e t r : expression_parse s = RetOk e ->
    Forall (custom_valid frag get (fun _ => True)) (parameters e) -> whole s = XOk t r ->
    forall subject, Forall scalar subject ->
      (run (compiled digits spaces words r) subject = Some None /\ ~ exists c, means_in frag type e [] subject [] c) \/
      exists c, run (compiled digits spaces words r) subject = Some (Some (Some subject :: c)) /\ exists v, means_in frag type e [] subject [] v.
  Proof.
    intros He Hv Hr subject Hs. destruct (any_matchers digits spaces words to_string get Htab Hp s e He Hv) as [_ Hm]. specialize (Hm t r Hr).
    destruct (translate_any digits spaces words Htab r (custom_ok s t r Hr)) as (_ & Ht & _). fold (compiled digits spaces words r) in Ht.
    unfold automaton_runs. destruct (automaton_answers (in_ranges digits) (in_ranges spaces) (in_ranges words) (compiled digits spaces words r) subject) as (x & Hx & Ha). rewrite Hx.
    destruct x as [c|]; cbn [leftmost_answer] in Ha.
    - right. destruct Ha as (pre & m & post & v & E & Hrm & -> & _). assert (Hsm : Forall scalar m) by (rewrite E, !Forall_app in Hs; tauto).
      destruct (proj1 (Ht pre m post Hsm) (ex_intro _ _ Hrm)) as [d Hd].
      destruct (proj1 (Hm pre m post Hsm) (ex_intro _ _ Hd)) as (-> & -> & Hme). cbn [app] in E. rewrite app_nil_r in E. subst m. now exists v.
    - left. split; [reflexivity|]. intros Hme. destruct (proj2 (Hm [] subject [] Hs) (conj eq_refl (conj eq_refl Hme))) as [d Hd].
      destruct (proj2 (Ht [] subject [] Hs) (ex_intro _ _ Hd)) as [v Hvv]. apply (Ha [] subject [] v); [cbn; now rewrite app_nil_r|exact Hvv].
  Qed.
End Custom.
