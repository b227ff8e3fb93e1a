(** The public parsers, exactly. *)
From Verif Require Export ProofParse2 SpecExact.

Lemma ends_spec r : ends text_special r <-> (r = [] \/ starts_with_in (s_ " ({/") r).
Proof.
  unfold ends, starts_with_in. destruct r as [|c r].
  - split; [now left|easy].
  - unfold text_special. split.
    + intros [H1 H2]. right. exists c, r. split; [reflexivity|]. cbn in *. intuition congruence.
    + intros [H|(c' & r' & H & Hc)]; [easy|]. injection H as <- <-. unfold backslash. cbn in *.
      intuition (subst; easy).
Qed.
Lemma not_starts c s : ~ starts_with_in [c] s <-> match s with d :: _ => d <> c | [] => True end.
Proof.
  unfold starts_with_in. destruct s as [|d s].
  - split; [easy|]. now intros _ (c' & r & H & _).
  - split.
    + intros H ->. apply H. exists c, s. cbn. auto.
    + intros H (c' & r & E & [<-|[]]). now injection E as -> _.
Qed.
Lemma parameter_err p s ix e : c_parameter p s ix = CErr e -> e = Other (p, s) KTag.
Proof.
  unfold c_parameter. destruct s as [|c s]; [now injection 1 as <-|].
  destruct (c =? c_ "{"); [|now injection 1 as <-].
  destruct (c_esc is_name (p ++ [c]) s) as [q r t|e'|e'] eqn:E; [|now apply c_esc_not_err in E|easy].
  destruct r as [|d r]; [easy|]. now destruct (d =? c_ "}").
Qed.
Lemma optional_err p s e : c_optional p s = CErr e -> e = Other (p, s) KTag.
Proof.
  unfold c_optional. destruct s as [|c s]; [now injection 1 as <-|].
  destruct (c =? c_ "("); [|now injection 1 as <-].
  destruct (c_esc is_in_optional (p ++ [c]) s) as [q r t|e'|e'] eqn:E; [|now apply c_esc_not_err in E|easy].
  destruct r as [|d r]; [easy|]. destruct (d =? c_ ")"); [|easy]. now destruct (snd t).
Qed.
Lemma single_err p s ix e : c_single p s ix = CErr e -> e = Other (p, s) KAlt.
Proof.
  unfold c_single. destruct (c_alternation p s); [easy| |easy]. destruct (c_optional p s); [easy| |easy].
  destruct (c_parameter p s ix); [easy| |easy]. destruct (c_text p s); [easy| |easy].
  destruct (c_whitespace p s); [easy| |easy]. now injection 1 as <-.
Qed.
Lemma alternation_err p s e : c_alternation p s = CErr e <->
  word_end s /\ e = Other (p, s) KMany1 \/
  exists b r, branch_ok b /\ word_end r /\ s = src_branch b ++ r /\ e = Other (p ++ src_branch b, r) KTag.
Proof.
  assert (H1 : forall b r, branch_ok b -> word_end r ->
    c_alternation p (src_branch b ++ r) = CErr (Other (p ++ src_branch b, r) KTag)).
  { intros b r [Hn Hb] Hr. unfold c_alternation. pose proof (proj1 (word_end_iff r) Hr) as [Hle Hsl].
    rewrite (proj2 (c_branch_ok_iff p _ (p ++ src_branch b) r (place_branch p b))).
    2:{ exists b. split; [easy|]. split; [exact Hb|]. split; [reflexivity|]. split; [apply Hle|auto]. }
    rewrite (proj2 (c_seps_ok_iff (S (List.length r)) (p ++ src_branch b) r [] (p ++ src_branch b) r tt ltac:(lia)
                      (proj1 Hle))).
    2:{ exists []. rewrite (app_tail_nil (p ++ src_branch b)). repeat split; auto; apply Hle. }
    now rewrite Hsl. }
  assert (H0 : word_end s -> c_alternation p s = CErr (Other (p, s) KMany1)).
  { intros Hr. unfold c_alternation. pose proof (proj1 (word_end_iff s) Hr) as [Hle Hsl].
    destruct (proj2 (c_branch_err_iff p s)) as [e' He]; [apply Hle|]. rewrite He, Hsl.
    now apply c_branch_err in He as ->. }
  split.
  - intros H. pose proof (proj1 (c_alternation_err_iff p s) (ex_intro _ _ H)) as (b & r & Hb & -> & Hr).
    destruct b as [|x b].
    + left. cbn [src_branch map List.concat app] in *. split; [assumption|]. rewrite H0 in H by assumption. congruence.
    + right. exists (x :: b), r. rewrite H1 in H; [|now split|assumption]. injection H as <-. repeat split; auto.
      all: try easy; apply Hb.
  - intros [[H ->]|(b & r & Hb & Hr & -> & ->)]; auto.
Qed.

Ltac bad H := cbn [lift] in H; try discriminate.
Lemma parameter_exact o l s ix out : ix < usize_max ->
  parse_parameter (mkspan o l s) ix = out <-> parameter_gives o l s ix out.
Proof.
  intros Hix. split.
  - intros <-. rewrite at_nil, parse_parameter_at by assumption.
    destruct (c_parameter [] s ix) as [q r a|e|e] eqn:E; cbn [lift next_ix].
    + apply c_parameter_ok_iff in E as (t & Ht & -> & -> & ->). now apply parameter_read.
    + rewrite (parameter_err _ _ _ _ E). apply parameter_absent.
      apply not_starts, (c_parameter_err_iff [] s ix). eauto.
    + apply c_parameter_fail_iff in E as (e' & He & ->). rewrite after_nil. now apply parameter_broken.
  - destruct 1 as [t r ix Ht|s ix H|s e ix H].
    + apply parameter_ok_iff; [assumption|]. exists t, r. auto 10.
    + rewrite at_nil, parse_parameter_at by assumption. apply not_starts, (c_parameter_err_iff [] s ix) in H as [e He].
      rewrite He. now rewrite (parameter_err _ _ _ _ He).
    + apply parameter_fail_iff; [assumption|]. eauto.
Qed.
Lemma optional_exact o l s out :
  parse_optional (mkspan o l s) = out <-> optional_gives o l s out.
Proof.
  split.
  - intros <-. rewrite at_nil, parse_optional_at.
    destruct (c_optional [] s) as [q r a|e|e] eqn:E; cbn [lift].
    + apply c_optional_ok_iff in E as (t & [Hn Ht] & -> & -> & ->). now apply optional_read.
    + rewrite (optional_err _ _ _ E). apply optional_absent.
      apply not_starts, (c_optional_err_iff [] s). eauto.
    + apply c_optional_fail_iff in E as (e' & He & ->). rewrite after_nil. now apply optional_broken.
  - destruct 1 as [t r Hn Ht|s H|s e H].
    + apply optional_ok_iff. exists t, r. auto 10.
    + rewrite at_nil, parse_optional_at. apply not_starts, (c_optional_err_iff [] s) in H as [e He].
      rewrite He. now rewrite (optional_err _ _ _ He).
    + apply optional_fail_iff. eauto.
Qed.
Lemma alternative_exact o l s out :
  parse_alternative (mkspan o l s) = out <-> alternative_gives o l s out.
Proof.
  split.
  - intros <-. rewrite at_nil, parse_alternative_at.
    destruct (c_alternative [] s) as [q r a|e|e] eqn:E; cbn [lift].
    + apply c_alternative_ok_iff in E as ([[t]|t] & Hw & -> & Hr & -> & ->).
      * cbn [src_alternative]. rewrite <- !app_assoc. destruct Hw as [Hn Ht]. now apply alternative_optional.
      * destruct Hw as [Hn Ht]. apply alternative_text; auto. apply ends_spec. now apply Hr.
    + rewrite (c_alternative_err _ _ _ E). apply alternative_absent.
      apply branch_end_iff, (c_alternative_err_iff [] s). eauto.
    + apply c_alternative_fail_iff in E as (e' & He & ->). rewrite after_nil. now apply alternative_broken.
  - destruct 1 as [t r Hn Ht Hr|t r Hn Ht|s H|s e H].
    + apply alternative_ok_iff. exists (AltText t), r. apply ends_spec in Hr.
      repeat split; auto.
    + apply alternative_ok_iff. exists (AltOptional (mkOptional t)), r. cbn [src_alternative]. rewrite <- !app_assoc.
      repeat split; auto. easy.
    + rewrite at_nil, parse_alternative_at. apply branch_end_iff, (c_alternative_err_iff [] s) in H as [e He].
      rewrite He. now rewrite (c_alternative_err _ _ _ He).
    + rewrite at_nil, parse_alternative_at.
      rewrite (proj2 (c_alternative_fail_iff [] s e)) by (exists e; now rewrite after_nil). reflexivity.
Qed.
Lemma alternation_exact o l s out :
  parse_alternation (mkspan o l s) = out <-> alternation_gives o l s out.
Proof.
  split.
  - intros <-. rewrite at_nil, parse_alternation_at.
    destruct (c_alternation [] s) as [q r a|e|e] eqn:E; cbn [lift].
    + apply c_alternation_ok_iff in E as (b & Hw & -> & Hr & -> & ->).
      apply alternation_read; [assumption|]. now apply word_end_iff'.
    + apply alternation_err in E as [[H ->]|(b & r & Hb & Hr & -> & ->)].
      * apply alternation_absent. now apply word_end_iff'.
      * apply alternation_one_branch; [now apply branch_iff|now apply word_end_iff'].
    + apply c_alternation_fail_iff in E as (e' & He & ->). rewrite after_nil. now apply alternation_broken.
  - destruct 1 as [a r Hw Hr|s H|b r Hb Hr|s e H].
    + apply alternation_ok_iff. exists a, r. repeat split; auto; try apply Hw. now apply word_end_iff'.
    + rewrite at_nil, parse_alternation_at.
      rewrite (proj2 (alternation_err [] s (Other ([], s) KMany1))); [reflexivity|].
      left. split; [now apply word_end_iff'|reflexivity].
    + rewrite at_nil, parse_alternation_at.
      rewrite (proj2 (alternation_err [] (src_branch b ++ r) (Other (src_branch b, r) KTag))); [reflexivity|].
      right. exists b, r. repeat split; try (apply branch_iff in Hb; apply Hb). now apply word_end_iff'.
    + apply alternation_fail_iff. eauto.
Qed.
Lemma one_branch_spec s : one_branch s <-> within_one_branch s.
Proof.
  unfold one_branch, within_one_branch.
  split; intros (b & r & H1 & H2 & H3); exists b, r;
    (split; [now apply items_iff|]; split; [assumption|]; now apply word_end_iff').
Qed.
Lemma rest_ok_spec x r : rest_ok x r <-> may_precede x r.
Proof.
  destruct x as [a|o|p|t|w]; cbn [rest_ok may_precede]; try tauto.
  - apply word_end_iff'.
  - apply one_branch_spec.
  - rewrite one_branch_spec. pose proof (ends_spec r). tauto.
  - symmetry. apply not_starts.
Qed.
Lemma single_exact o l s ix out : ix < usize_max ->
  parse_single_expression (mkspan o l s) ix = out <-> single_gives o l s ix out.
Proof.
  intros Hix. split.
  - intros <-. rewrite at_nil, parse_single_at by assumption.
    destruct (c_single [] s ix) as [q r a|e|e] eqn:E; cbn [lift bump].
    + apply c_single_ok_iff in E as (x & Hw & -> & Hr & Hi & -> & ->). apply rest_ok_spec in Hr.
      destruct x as [a|[t]|p|t|w]; cbn [id_is] in Hi.
      3:{ subst ix. now apply single_parameter. }
      all: now apply single_other.
    + rewrite (single_err _ _ _ _ E). rewrite (proj1 (c_single_err_iff [] s ix) (ex_intro _ _ E)). apply single_absent.
    + apply c_single_fail_iff in E as (e' & He & ->). rewrite after_nil. now apply single_broken.
  - rewrite at_nil, parse_single_at by assumption. destruct 1 as [p r Hw|x r ix Hw Hr Hx|ix|s e ix H].
    + rewrite (proj2 (c_single_ok_iff [] _ (par_id p) (src_single (ExParameter p)) r (place_single [] (ExParameter p)))); [reflexivity|].
      exists (ExParameter p). repeat split; auto.
    + rewrite (proj2 (c_single_ok_iff [] _ ix (src_single x) r (place_single [] x))).
      * cbn [lift bump]. destruct x; try reflexivity. now destruct (Hx p).
      * exists x. repeat split; auto; [now apply rest_ok_spec|]. destruct x; cbn; auto. now destruct (Hx p).
    + reflexivity.
    + rewrite (proj2 (c_single_fail_iff [] s ix e)) by (exists e; now rewrite after_nil). reflexivity.
Qed.
Lemma expression_exact o l s out : addressable s ->
  parse_expression (mkspan o l s) = out <-> expression_gives o l s out.
Proof.
  intros Hs. split.
  - intros <-. destruct (parse_expression (mkspan o l s)) as [rest e|b] eqn:E.
    + apply parse_expression_iff in E as (e' & Hw & <- & -> & ->); [|assumption]. now apply expression_read.
    + destruct (parse_expression_total o l s Hs) as [(rest & e & H)|(er & H)]; rewrite E in H; [easy|].
      injection H as ->. apply parse_expression_error_iff in E as (e & He & ->); [|assumption].
      now apply expression_fails.
  - destruct 1 as [e Hw|s e He].
    + apply parse_expression_iff; [assumption|]. exists e. auto.
    + apply parse_expression_error_iff; [assumption|]. eauto.
Qed.
