(** The line counter. *)
From Verif Require Export ProofGeneric2 SpecLines.
From Verif Require Import ProofTransfer ProofBelow.

Lemma as_u32_eq n : as_u32 n = n mod 2 ^ 32.
Proof. reflexivity. Qed.

(** * Without overflow checks: the remainder. *)
Lemma hom_wrapping : hom wrapping_ops wrapped.
Proof.
  assert (F : forall i n, wrapping_take_from (wrapped i) n = option_map wrapped (take_from i n)).
  { intros i n. unfold wrapping_take_from, take_from, wrapped. cbn [frag off line].
    destruct (take_bytes n (frag i)); [|reflexivity]. destruct (drop_bytes n (frag i)); [|reflexivity].
    cbn [option_map off line frag]. rewrite !as_u32_eq, <- N.add_mod by discriminate. reflexivity. }
  constructor; try reflexivity; intros i n.
  - cbn [g_take wrapping_ops]. unfold take, wrapped. cbn [frag off line]. now destruct (take_bytes n (frag i)).
  - apply F.
  - cbn [g_take_split wrapping_ops]. unfold split_by, take_split. rewrite F. destruct (take_from i n); [|reflexivity].
    unfold take, wrapped. cbn [option_map frag off line]. now destruct (take_bytes n (frag i)).
Qed.
Lemma wrapped_new s : wrapped (span_new s) = span_new s.
Proof. reflexivity. Qed.
Theorem wrapping_parse s : expression_parse_by wrapping_ops s = map_returned wrapped (expression_parse s).
Proof.
  unfold expression_parse_by. rewrite <- (wrapped_new s). destruct (any_view _ _ hom_wrapping) as (_ & _ & _ & _ & _ & E).
  rewrite E. unfold expression_parse. destruct (parse_expression (span_new s)) as [rest a|[]]; try reflexivity.
  cbn [map_result g_len wrapping_ops]. unfold input_len. cbn [frag wrapped]. now destruct (blen (frag rest) =? 0).
Qed.

(** * With them: the same or a panic. *)
Lemma below_checked : below wrapping_ops checked_ops (fun i => i).
Proof.
  assert (I : forall A (o : option A), option_map (fun i => i) o = o) by now intros A [].
  assert (F : forall i n, maybe (fun i => i) (checked_take_from i n) (wrapping_take_from i n)).
  { intros i n. unfold maybe. rewrite I. unfold checked_take_from, wrapping_take_from.
    destruct (take_bytes n (frag i)) as [p|]; [|now left]. destruct (drop_bytes n (frag i)) as [q|]; [|now left].
    destruct (u32_max <? line i + as_u32 (newlines p)) eqn:L; [now left|]. right. apply N.ltb_ge in L.
    unfold as_u32 at 2. rewrite N.mod_small; [reflexivity|]. lia. }
  constructor; try reflexivity; try (intros a b; right; now rewrite I).
  - exact F.
  - intros i n. cbn [g_take_split wrapping_ops checked_ops]. unfold split_by. destruct (F i n) as [-> | ->]; [now left|]. right.
    destruct (wrapping_take_from i n); [|reflexivity]. cbn. now destruct (take i n).
Qed.
Theorem checked_parse s : expression_parse_by checked_ops s = Panics \/
  expression_parse_by checked_ops s = expression_parse_by wrapping_ops s.
Proof.
  unfold expression_parse_by. destruct (expression_under _ _ _ below_checked (span_new s)) as [-> | ->]; [now left|]. right.
  destruct (parse_expression_in wrapping_ops (span_new s)) as [rest a|[]]; cbn [gmap_result gmap_bad]; try reflexivity; try now rewrite error_id.
  rewrite expression_id. reflexivity.
Qed.

(** * Few lines: no overflow. *)
Definition fits (i : span) : Prop := line i + newlines (frag i) <= u32_max.
Definition fitting := { i : span | fits i }.
Definition the_span (i : fitting) : span := proj1_sig i.

Lemma bytes_newlines s : forall n p q, take_bytes n s = Some p -> drop_bytes n s = Some q -> newlines s = newlines p + newlines q.
Proof.
  induction s as [|c s IH]; intros n p q; cbn [take_bytes drop_bytes].
  - destruct (n =? 0); [|discriminate]. intros [= <-] [= <-]. reflexivity.
  - destruct (n =? 0); [intros [= <-] [= <-]; reflexivity|]. destruct (n <? len_utf8 c); [discriminate|].
    destruct (take_bytes (n - len_utf8 c) s) as [p'|] eqn:E; [|discriminate]. intros [= <-] Hq. cbn. rewrite (IH _ _ _ E Hq). lia.
Qed.
Lemma bytes_both s n p : take_bytes n s = Some p -> exists q, drop_bytes n s = Some q.
Proof. intros E. pose proof (drop_take s n) as D. rewrite E in D. destruct (drop_bytes n s) as [q|]; [now exists q|easy]. Qed.
Lemma take_fits i n j : fits i -> take i n = Some j -> fits j.
Proof.
  unfold take, fits. destruct (take_bytes n (frag i)) as [p|] eqn:E; [|discriminate]. intros Hi [= <-]. cbn.
  destruct (bytes_both _ _ _ E) as [q Hq]. rewrite (bytes_newlines _ _ _ _ E Hq) in Hi. lia.
Qed.
Lemma take_from_fits i n j : fits i -> take_from i n = Some j -> fits j.
Proof.
  unfold take_from, fits. destruct (take_bytes n (frag i)) as [p|] eqn:E; [|discriminate]. destruct (drop_bytes n (frag i)) as [q|] eqn:F; [|discriminate].
  intros Hi [= <-]. cbn. rewrite (bytes_newlines _ _ _ _ E F) in Hi. lia.
Qed.
Lemma checked_fits i n : fits i -> checked_take_from i n = take_from i n.
Proof.
  unfold checked_take_from, take_from, fits. destruct (take_bytes n (frag i)) as [p|] eqn:E; [|reflexivity]. destruct (drop_bytes n (frag i)) as [q|] eqn:F; [|reflexivity].
  intros Hi. rewrite (bytes_newlines _ _ _ _ E F) in Hi. unfold as_u32. rewrite N.mod_small by lia.
  destruct (u32_max <? line i + newlines p) eqn:L; [apply N.ltb_lt in L; lia|reflexivity].
Qed.
(** An option of a span that fits, with the proof. *)
Definition fitted (o : option span) : (forall j, o = Some j -> fits j) -> option fitting :=
  match o return (forall j, o = Some j -> fits j) -> option fitting with
  | Some j => fun H => Some (exist _ j (H j eq_refl))
  | None => fun _ => None
  end.
Lemma fitted_span o H : option_map the_span (fitted o H) = o.
Proof. now destruct o. Qed.
Definition fitting_take (i : fitting) (n : N) : option fitting := fitted (take (the_span i) n) (fun j => take_fits _ n j (proj2_sig i)).
Definition fitting_take_from (i : fitting) (n : N) : option fitting := fitted (take_from (the_span i) n) (fun j => take_from_fits _ n j (proj2_sig i)).
Definition fitting_ops : input_ops fitting :=
  mkops (fun i => input_len (the_span i)) fitting_take fitting_take_from
    (fun i n => match fitting_take_from i n, fitting_take i n with Some s, Some p => Some (s, p) | _, _ => None end)
    (fun i n => slice_index (the_span i) n) (fun i => frag (the_span i)) (fun a b => offset (the_span a) (the_span b)).
Lemma view_fitting_span : view fitting_ops span_ops the_span.
Proof.
  constructor; try reflexivity; intros i n.
  - symmetry. apply fitted_span.
  - symmetry. apply fitted_span.
  - cbn [g_take_split fitting_ops span_ops]. unfold take_split.
    assert (A : take_from (the_span i) n = option_map the_span (fitting_take_from i n)) by (symmetry; apply fitted_span).
    assert (B : take (the_span i) n = option_map the_span (fitting_take i n)) by (symmetry; apply fitted_span).
    rewrite A, B. destruct (fitting_take_from i n), (fitting_take i n); reflexivity.
Qed.
Lemma view_fitting_checked : view fitting_ops checked_ops the_span.
Proof.
  destruct view_fitting_span. constructor; try reflexivity; intros i n.
  - apply view_take.
  - cbn [g_take_from checked_ops]. rewrite checked_fits by exact (proj2_sig i). apply view_take_from.
  - cbn [g_take_split checked_ops]. unfold split_by. rewrite checked_fits by exact (proj2_sig i). apply view_take_split.
Qed.
Lemma few_fits s : few_lines s -> fits (span_new s).
Proof. unfold few_lines, fits, u32_max. cbn [line frag span_new]. change (2 ^ 32) with 4294967296. lia. Qed.
Lemma span_parse s : expression_parse_by span_ops s = expression_parse s.
Proof.
  unfold expression_parse_by, expression_parse. destruct (any_view _ _ hom_span) as (_ & _ & _ & _ & _ & E).
  rewrite E. destruct (parse_expression (span_new s)) as [rest a|[]]; cbn [map_result map_bad]; try reflexivity; try now rewrite error_id.
  rewrite expression_id. reflexivity.
Qed.
Theorem few_lines_parse s : few_lines s -> expression_parse_by checked_ops s = expression_parse s.
Proof.
  intros Hs. rewrite <- span_parse. unfold expression_parse_by.
  change (span_new s) with (the_span (exist fits (span_new s) (few_fits s Hs))).
  rewrite (ProofTransfer.expression_alike _ _ _ view_fitting_checked), (ProofTransfer.expression_alike _ _ _ view_fitting_span). reflexivity.
Qed.
Lemma wrapping_fits i n : fits i -> wrapping_take_from i n = take_from i n.
Proof.
  unfold wrapping_take_from, take_from, fits. destruct (take_bytes n (frag i)) as [p|] eqn:E; [|reflexivity]. destruct (drop_bytes n (frag i)) as [q|] eqn:F; [|reflexivity].
  intros Hi. rewrite (bytes_newlines _ _ _ _ E F) in Hi. unfold as_u32. rewrite !N.mod_small; [reflexivity|lia|rewrite N.mod_small; lia].
Qed.
Lemma view_fitting_wrapping : view fitting_ops wrapping_ops the_span.
Proof.
  destruct view_fitting_span. constructor; try reflexivity; intros i n.
  - apply view_take.
  - cbn [g_take_from wrapping_ops]. rewrite wrapping_fits by exact (proj2_sig i). apply view_take_from.
  - cbn [g_take_split wrapping_ops]. unfold split_by. rewrite wrapping_fits by exact (proj2_sig i). apply view_take_split.
Qed.
Theorem few_lines_wrapping s : few_lines s -> expression_parse_by wrapping_ops s = expression_parse s.
Proof.
  intros Hs. rewrite <- span_parse. unfold expression_parse_by.
  change (span_new s) with (the_span (exist fits (span_new s) (few_fits s Hs))).
  rewrite (ProofTransfer.expression_alike _ _ _ view_fitting_wrapping), (ProofTransfer.expression_alike _ _ _ view_fitting_span). reflexivity.
Qed.

(** * Too many: a panic. *)
Section Breaks.
  Context (m : nat) (Hm : u32_max < 1 + as_u32 (N.of_nat (S m))).
  Let s := repeat 10 (S m).
  Lemma breaks_count n : newlines (repeat 10 n) = N.of_nat n.
  Proof. induction n as [|n IH]; [reflexivity|]. cbn [repeat newlines N.eqb Pos.eqb]. rewrite IH. lia. Qed.
  Lemma breaks_len n : blen (repeat 10 n) = N.of_nat n.
  Proof. induction n as [|n IH]; [reflexivity|]. cbn [repeat blen]. rewrite IH. change (len_utf8 10) with 1. lia. Qed.
  Lemma breaks_find n : find_bytes (fun c => negb (is_without_whitespace c)) (repeat 10 n) = None.
  Proof. induction n as [|n IH]; [reflexivity|]. cbn. now rewrite IH. Qed.
  Lemma breaks_all n : take_bytes (N.of_nat n) (repeat 10 n) = Some (repeat 10 n) /\ drop_bytes (N.of_nat n) (repeat 10 n) = Some [].
  Proof.
    induction n as [|n [IH IH']]; [split; reflexivity|]. cbn [repeat take_bytes drop_bytes].
    replace (N.of_nat (S n) =? 0) with false by (symmetry; apply N.eqb_neq; lia). change (len_utf8 10) with 1.
    replace (N.of_nat (S n) <? 1) with false by (symmetry; apply N.ltb_ge; lia).
    replace (N.of_nat (S n) - 1) with (N.of_nat n) by lia. now rewrite IH, IH'.
  Qed.
  Lemma breaks_from : checked_take_from (span_new s) (N.of_nat (S m)) = None.
  Proof.
    unfold checked_take_from. cbn [frag span_new line]. unfold s. destruct (breaks_all (S m)) as [-> ->]. rewrite breaks_count.
    destruct (u32_max <? 1 + as_u32 (N.of_nat (S m))) eqn:L; [reflexivity|]. apply N.ltb_ge in L. lia.
  Qed.
  Lemma breaks_text : escaped_reserved_chars0_in checked_ops (take_while_in checked_ops is_without_whitespace) (span_new s) = GBad GPanic.
  Proof.
    unfold escaped_reserved_chars0_in, map_err_in, escaped0_in.
    replace (2 * List.length (g_elements checked_ops (span_new s)))%nat with (S (S (m + m)))
      by (cbn [g_elements checked_ops]; unfold iter_elements, s; cbn [frag span_new]; rewrite repeat_length; lia).
    cbn [escaped0_loop_in]. cbn [g_len checked_ops]. unfold input_len. cbn [frag span_new].
    replace (blen s) with (N.of_nat (S m)) by (symmetry; apply breaks_len).
    replace (N.of_nat (S m) =? 0) with false by (symmetry; apply N.eqb_neq; lia).
    replace (take_while_in checked_ops is_without_whitespace (span_new s)) with (@GBad span span GPanic); [reflexivity|].
    unfold take_while_in. cbn [g_elements checked_ops g_len]. unfold iter_elements, input_len. cbn [frag span_new].
    unfold s at 1. rewrite breaks_find. unfold split_result_in. cbn [g_take_split checked_ops]. unfold split_by.
    replace (blen s) with (N.of_nat (S m)) by (symmetry; apply breaks_len). now rewrite breaks_from.
  Qed.
  Lemma breaks_optional : exists e, parse_optional_in checked_ops (span_new s) = GBad (GError e).
  Proof. eexists. unfold parse_optional_in. cbn [optional_d_in]. unfold s. reflexivity. Qed.
  Lemma breaks_alternation : parse_alternation_in checked_ops (span_new s) = GBad GPanic.
  Proof.
    unfold parse_alternation_in, separated_list1_in, many1_in.
    replace (parse_alternative_in checked_ops (span_new s)) with (@GBad span (alternative span) GPanic); [reflexivity|].
    unfold parse_alternative_in, alt_in, pure_in, map_parser_in at 1. destruct breaks_optional as [e ->]. cbn [alt_from_in].
    unfold map_parser_in, verify_in. now rewrite breaks_text.
  Qed.
  Lemma breaks_panic : expression_parse_by checked_ops s = Panics.
  Proof.
    unfold expression_parse_by, parse_expression_in, many0_in. cbn [many0_loop_in]. unfold parse_single_expression_in at 1, alt_in, pure_in at 1, map_parser_in at 1.
    now rewrite breaks_alternation.
  Qed.
End Breaks.
Theorem many_lines : exists s, addressable s /\ expression_parse_by checked_ops s = Panics.
Proof.
  exists (repeat 10 (S (N.to_nat (u32_max - 1)))). split.
  - unfold addressable. rewrite repeat_length, Nat2N.inj_succ, N2Nat.id. vm_compute. discriminate.
  - apply breaks_panic. rewrite Nat2N.inj_succ, N2Nat.id. reflexivity.
Qed.
