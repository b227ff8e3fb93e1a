(** At least one step for each char that is consumed. *)
From Verif Require Export ProofSteps CharLevel.

Definition paid {A} (i : span) (x : counted (result A)) : Prop :=
  forall r a, fst x = Ok r a -> (List.length (frag i) <= List.length (frag r) + snd x)%nat.
Definition pays {A} (p : counted_parser A) : Prop := forall i, paid i (p i).
Definition paid_st {A S} (i : span) (x : counted (result A * S)) : Prop :=
  forall r a, fst (fst x) = Ok r a -> (List.length (frag i) <= List.length (frag r) + snd x)%nat.
Definition pays_st {A S} (p : span -> S -> counted (result A * S)) : Prop := forall i st, paid_st i (p i st).

Lemma take_bytes_len n s p q : take_bytes n s = Some p -> drop_bytes n s = Some q -> (List.length s = List.length p + List.length q)%nat.
Proof.
  revert n p q. induction s as [|c s IH]; intros n p q; cbn [take_bytes drop_bytes].
  - destruct (n =? 0); [|discriminate]. intros [= <-] [= <-]. reflexivity.
  - destruct (n =? 0); [intros [= <-] [= <-]; reflexivity|]. destruct (n <? len_utf8 c); [discriminate|].
    destruct (take_bytes (n - len_utf8 c) s) as [u|] eqn:E; [|discriminate]. cbn. intros [= <-] H. cbn. now rewrite (IH _ _ _ E H).
Qed.
Lemma take_from_paid i n r : take_from i n = Some r -> (List.length (frag i) = List.length (frag r) + chars n (frag i))%nat.
Proof.
  unfold take_from, chars. destruct (take_bytes n (frag i)) as [p|] eqn:E1; [|discriminate]. destruct (drop_bytes n (frag i)) as [q|] eqn:E2; [|discriminate].
  intros [= <-]. cbn [frag]. pose proof (take_bytes_len _ _ _ _ E1 E2). lia.
Qed.
Lemma split_paid i n : paid i (split_result_steps i n).
Proof.
  intros r a. unfold split_result_steps, split_result, take_split. cbn [fst snd]. destruct (take_from i n) as [s|] eqn:E; [|discriminate].
  destruct (take i n); [|discriminate]. intros [= <- _]. apply take_from_paid in E. lia.
Qed.
Lemma tick_paid {A} i n (x : counted (result A)) : paid i x -> paid i (tick n x).
Proof. intros H r a E. specialize (H r a E). unfold tick. cbn. lia. Qed.
Lemma tick_paid_st {A S} i n (x : counted (result A * S)) : paid_st i x -> paid_st i (tick n x).
Proof. intros H r a E. specialize (H r a E). unfold tick. cbn. lia. Qed.
Lemma bad_paid {A} i b n : paid i ((Bad b : result A), n).
Proof. intros r a. discriminate. Qed.
Lemma tag_paid t : pays (tag_steps t).
Proof. intros i. unfold tag_steps. apply tick_paid. destruct (starts_with t (frag i)); [apply split_paid|apply bad_paid]. Qed.
Lemma one_of_paid l : pays (one_of_steps l).
Proof.
  intros i. unfold one_of_steps. destruct (iter_elements i) as [|c u]; [apply bad_paid|]. destruct (contains l c); [|apply bad_paid].
  destruct (take_from i (len_utf8 c)) as [r|] eqn:E; [|apply bad_paid]. intros r' a [= <- _]. apply take_from_paid in E. cbn [snd]. lia.
Qed.
Lemma take_while_paid f : pays (take_while_steps f).
Proof. intros i. unfold take_while_steps. apply tick_paid. destruct (find_bytes _ _); apply split_paid. Qed.
Lemma take_while1_paid f : pays (take_while1_steps f).
Proof.
  intros i. unfold take_while1_steps. apply tick_paid. destruct (find_bytes _ _) as [n|].
  - destruct (n =? 0); [apply bad_paid|apply split_paid].
  - destruct (input_len i =? 0); [apply bad_paid|apply split_paid].
Qed.
Lemma then_paid {A B} i (x : counted (result A)) (k : result A -> counted (result B)) : paid i x ->
  (forall r a, fst x = Ok r a -> paid r (k (Ok r a))) -> (forall b r a, fst x = Bad b -> fst (k (Bad b)) <> Ok r a) -> paid i (then_ x k).
Proof.
  intros Hx Hk Hb r a E. unfold then_, tick in *. cbn [fst snd] in *. destruct x as [[r0 a0|b] n]; cbn [fst snd] in *.
  - specialize (Hx r0 a0 eq_refl). specialize (Hk r0 a0 eq_refl r a E). cbn [snd] in Hx. lia.
  - now apply Hb in E.
Qed.
Lemma then_paid_st {A B S} i (x : counted (result A)) (k : result A -> counted (result B * S)) : paid i x ->
  (forall r a, fst x = Ok r a -> paid_st r (k (Ok r a))) -> (forall b r a, fst x = Bad b -> fst (fst (k (Bad b))) <> Ok r a) -> paid_st i (then_ x k).
Proof.
  intros Hx Hk Hb r a E. unfold then_, tick in *. cbn [fst snd] in *. destruct x as [[r0 a0|b] n]; cbn [fst snd] in *.
  - specialize (Hx r0 a0 eq_refl). specialize (Hk r0 a0 eq_refl r a E). cbn [snd] in Hx. lia.
  - now apply Hb in E.
Qed.
Lemma map_paid {A B} (p : counted_parser A) (f : A -> B) : pays p -> pays (map_steps p f).
Proof.
  intros H i. unfold map_steps. apply tick_paid, then_paid; [apply H|intros r a _ r' a' [= <- _]; cbn; lia|discriminate].
Qed.
Lemma verify_paid {A} (p : counted_parser A) ok : pays p -> pays (verify_steps p ok).
Proof.
  intros H i. unfold verify_steps. apply tick_paid, then_paid; [apply H| |discriminate].
  intros r a _ r' a'. cbn [fst snd]. destruct (ok a); [|discriminate]. intros [= <- _]. lia.
Qed.
Lemma pure_paid {S A} (p : counted_parser A) : pays p -> pays_st (S := S) (pure_steps p).
Proof. intros H i st r a E. exact (H i r a E). Qed.
Lemma alt_from_paid {S A} (ps : list (span -> S -> counted (result A * S))) : Forall pays_st ps -> forall last i st, paid_st i (alt_from_steps ps last i st).
Proof.
  induction 1 as [|p ps Hp _ IH]; intros last i st r a; cbn [alt_from_steps]; [discriminate|]. unfold then_, tick. cbn [fst snd]. specialize (Hp i st).
  destruct (p i st) as [[x st'] n]. cbn [fst snd] in *. destruct x as [r0 a0|[| | | |]]; try discriminate.
  - cbn. intros [= <- <-]. specialize (Hp r0 a0 eq_refl). cbn in Hp. lia.
  - intros E. specialize (IH _ i st' r a E). lia.
Qed.
Lemma alt_paid {S A} (ps : list (span -> S -> counted (result A * S))) : Forall pays_st ps -> pays_st (alt_steps ps).
Proof.
  intros H i st. unfold alt_steps. apply tick_paid_st. destruct H as [|p ps Hp H]; [intros r a; discriminate|]. intros r a.
  unfold then_, tick. cbn [fst snd]. specialize (Hp i st).
  destruct (p i st) as [[x st'] n]. cbn [fst snd] in *. destruct x as [r0 a0|[| | | |]]; try discriminate.
  - cbn. intros [= <- <-]. specialize (Hp r0 a0 eq_refl). cbn in Hp. lia.
  - intros E. pose proof (alt_from_paid ps H _ i st' r a E). lia.
Qed.
Lemma many0_loop_paid {S A} (p : span -> S -> counted (result A * S)) : pays_st p -> forall fuel acc i st, paid_st i (many0_loop_steps fuel p acc i st).
Proof.
  intros Hp. induction fuel as [|fuel IH]; intros acc i st r a; cbn [many0_loop_steps]; [discriminate|]. unfold then_, tick. cbn [fst snd]. specialize (Hp i st).
  destruct (p i st) as [[x st'] n]. cbn [fst snd] in *. destruct x as [r0 a0|[| | | |]]; try discriminate.
  - destruct (input_len r0 =? input_len i); [discriminate|]. intros E. specialize (IH _ r0 st' r a E). specialize (Hp r0 a0 eq_refl). cbn in Hp. lia.
  - intros [= <- _]. lia.
Qed.
Lemma many1_loop_paid {A} (p : counted_parser A) : pays p -> forall fuel acc i, paid i (many1_loop_steps fuel p acc i).
Proof.
  intros Hp. induction fuel as [|fuel IH]; intros acc i r a; cbn [many1_loop_steps]; [discriminate|]. unfold then_, tick. cbn [fst snd]. specialize (Hp i).
  destruct (p i) as [x n]. cbn [fst snd] in *. destruct x as [r0 a0|[| | | |]]; try discriminate.
  - destruct (input_len r0 =? input_len i); [discriminate|]. intros E. specialize (IH _ r0 r a E). specialize (Hp r0 a0 eq_refl). cbn in Hp. lia.
  - intros [= <- _]. lia.
Qed.
Lemma many1_paid {A} (p : counted_parser A) : pays p -> pays (many1_steps p).
Proof.
  intros Hp i. unfold many1_steps. apply tick_paid, then_paid; [apply Hp|intros; now apply many1_loop_paid|intros [] ? ?; discriminate].
Qed.
Lemma separated_loop_paid {A B} (s : counted_parser B) (p : counted_parser A) : pays s -> pays p -> forall fuel acc i, paid i (separated_list1_loop_steps fuel s p acc i).
Proof.
  intros Hs Hp. induction fuel as [|fuel IH]; intros acc i r a; cbn [separated_list1_loop_steps]; [discriminate|]. unfold then_, tick. cbn [fst snd]. specialize (Hs i).
  destruct (s i) as [x n]. cbn [fst snd] in *. destruct x as [r0 a0|[| | | |]]; try discriminate.
  - specialize (Hp r0). destruct (p r0) as [y m]. cbn [fst snd] in *. destruct y as [r1 a1|[| | | |]]; try discriminate.
    + destruct (input_len r1 =? input_len i); [discriminate|]. intros E. specialize (IH _ r1 r a E). specialize (Hs r0 a0 eq_refl). specialize (Hp r1 a1 eq_refl). cbn in Hs, Hp. lia.
    + intros [= <- _]. lia.
  - intros [= <- _]. lia.
Qed.
Lemma separated_paid {A B} (s : counted_parser B) (p : counted_parser A) : pays s -> pays p -> pays (separated_list1_steps s p).
Proof.
  intros Hs Hp i. unfold separated_list1_steps. apply tick_paid, then_paid; [apply Hp|intros; now apply separated_loop_paid|discriminate].
Qed.
Lemma map_err_paid {A} (p : counted_parser A) f : pays p -> pays (map_err_steps p f).
Proof.
  intros Hp i. unfold map_err_steps. apply tick_paid, then_paid; [apply Hp|intros r a _ r' a' [= <- _]; cbn; lia|intros [] ? ? ?; cbn; discriminate].
Qed.
Lemma whole_paid i : paid i (whole_steps i).
Proof. intros r a _. unfold whole_steps. cbn [snd]. lia. Qed.
(** The charge is made at the end, for all that was consumed. *)
Lemma escaped0_loop_paid {A B} (normal : counted_parser A) c (escapable : counted_parser B) input : forall fuel i b,
  paid input (escaped0_loop_steps fuel normal c escapable input i b).
Proof.
  induction fuel as [|fuel IH]; intros i b; cbn [escaped0_loop_steps]; apply tick_paid; (destruct (input_len i =? 0); [apply whole_paid|]).
  - apply bad_paid.
  - assert (T : forall n (x : counted (result span)), paid input x -> paid input (tick n x)) by (intros; now apply tick_paid).
    assert (E : paid input match iter_elements i with
        | [] => (Bad (BError (from_error_kind i KEscaped)), 0%nat)
        | next_char :: _ =>
            tick 1
            (if next_char =? c then
              if input_len i <=? len_utf8 c then (Bad (BError (from_error_kind input KEscaped)), 0%nat)
              else match take_from i (len_utf8 c) with
                   | None => (Bad BPanic, 0%nat)
                   | Some i' =>
                       tick (chars (len_utf8 c) (frag i))
                       (then_ (escapable i') (fun x =>
                       match x with
                       | Ok i2 _ =>
                           if input_len i2 =? 0 then whole_steps input
                           else escaped0_loop_steps fuel normal c escapable input i2 false
                       | Bad BPanic => (Bad BPanic, 0%nat)
                       | Bad BFuel => (Bad BFuel, 0%nat)
                       | Bad _ => (Bad (BError (from_error_kind i KEscaped)), 0%nat)
                       end))
                   end
            else
              match offset input i with
              | None => (Bad BPanic, 0%nat)
              | Some index => split_result_steps input index
              end)
        end).
    { destruct (iter_elements i) as [|d u]; [apply bad_paid|]. apply T. destruct (d =? c).
      - destruct (input_len i <=? len_utf8 c); [apply bad_paid|]. destruct (take_from i (len_utf8 c)) as [i'|]; [|apply bad_paid]. apply T.
        unfold then_. apply T. destruct (fst (escapable i')) as [i2 x|[| | | |]]; try apply bad_paid.
        destruct (input_len i2 =? 0); [apply whole_paid|apply IH].
      - destruct (offset input i); [apply split_paid|apply bad_paid]. }
    unfold then_ at 1. apply T. destruct (fst (normal i)) as [i2 x|[| | | |]]; try apply bad_paid; [|exact E].
    destruct b; [exact E|]. destruct (input_len i2 =? 0); [apply whole_paid|apply IH].
Qed.
Lemma esc_paid normal : pays (escaped_reserved_chars0_steps normal).
Proof. apply map_err_paid. intros i. apply escaped0_loop_paid. Qed.
Lemma parameter_paid d : pays_st (parameter_d_steps d).
Proof.
  intros i ix. destruct d as [|d]; [intros r a; discriminate|]. cbn [parameter_d_steps]. apply tick_paid_st, then_paid_st; [apply tag_paid| |discriminate].
  intros r a _. apply then_paid_st; [apply esc_paid| |discriminate]. intros r' a' _. apply then_paid_st; [apply map_err_paid, tag_paid| |discriminate].
  intros r2 a2 _ r3 a3. cbn. destruct (usize_max <? ix + 1); [discriminate|]. intros [= <- _]. lia.
Qed.
Lemma optional_paid d : pays (optional_d_steps d).
Proof.
  intros i. destruct d as [|d]; [intros r a; discriminate|]. cbn [optional_d_steps]. apply tick_paid, then_paid; [apply tag_paid| |discriminate].
  intros r a _. apply then_paid; [apply esc_paid| |discriminate]. intros r' a' _. apply then_paid; [apply map_err_paid, tag_paid| |discriminate].
  intros r2 a2 _ r3 a3. destruct (input_len a' =? 0); [cbn; discriminate|]. intros [= <- _]. cbn. lia.
Qed.
Lemma alternative_paid : pays parse_alternative_steps.
Proof.
  intros i. unfold parse_alternative_steps.
  refine (alt_paid [_; _] _ i tt). repeat constructor; apply pure_paid, map_paid; [intros j; apply optional_paid|apply verify_paid, esc_paid].
Qed.
Lemma alternation_paid : pays parse_alternation_steps.
Proof.
  intros i. unfold parse_alternation_steps. apply tick_paid, then_paid; [| |discriminate].
  - unfold alternation_list_steps. apply then_paid; [apply separated_paid; [apply tag_paid|apply many1_paid, alternative_paid]| |].
    + intros r a _ r' a'. unfold then_, tick. cbn [fst snd]. destruct (fst (peek_steps (tag_steps (s_ "/")) r)) as [? ?|[| | | |]]; try discriminate;
        (destruct (Nat.eqb (List.length a) 1); [discriminate|]); intros [= <- _]; lia.
    + intros b r a _ E. destruct b as [[]| | | |]; try discriminate E. destruct k; try discriminate E.
      unfold then_, tick in E. cbn [fst snd] in E. destruct (fst (peek_steps (tag_steps (s_ "/")) i0)) as [? ?|[| | | |]]; discriminate E.
  - intros r a _ r' a'. unfold tick. cbn [fst snd]. destruct (contains_only_optional a).
    + cbn [fst snd]. destruct (span_len input_len a); discriminate.
    + intros [= <- _]. lia.
Qed.
Lemma single_expression_paid : pays_st parse_single_expression_steps.
Proof.
  apply alt_paid. repeat constructor.
  - apply pure_paid, map_paid, alternation_paid.
  - apply pure_paid, map_paid. intros j; apply optional_paid.
  - intros i ix. pose proof (parameter_paid (S (List.length (frag i))) i ix) as H. unfold parse_parameter_steps, then_, tick.
    destruct (parameter_d_steps (S (List.length (frag i))) i ix) as [[[r a|b] ix'] n]; intros r' a'; cbn [fst snd]; [|discriminate].
    intros [= <- _]. specialize (H r a eq_refl). cbn [snd] in H. lia.
  - apply pure_paid, map_paid, verify_paid, esc_paid.
  - apply pure_paid, map_paid, take_while1_paid.
Qed.
Theorem parse_least : forall s e, expression_parse s = RetOk e -> (List.length s < steps_of (expression_parse_steps s))%nat.
Proof.
  intros s e H. rewrite <- expression_parse_same in H. unfold expression_parse_steps, steps_of, then_, tick in *. cbn [fst snd] in *.
  assert (P : paid (span_new s) (parse_expression_steps (span_new s))).
  { unfold parse_expression_steps, many0_steps. intros r a E. exact (tick_paid_st _ 1 _ (many0_loop_paid _ single_expression_paid _ _ (span_new s) 0) r a E). }
  destruct (parse_expression_steps (span_new s)) as [[r a|[| | | |]] n]; cbn [fst snd] in *; try discriminate.
  destruct (input_len r =? 0) eqn:E; [|discriminate]. specialize (P r a eq_refl). cbn [snd span_new frag] in P.
  apply N.eqb_eq in E. unfold input_len in E. destruct r as [o l [|c u]]; cbn [frag] in *; [cbn in P; lia|].
  exfalso. cbn in E. pose proof (len_utf8_pos c). lia.
Qed.
Theorem parsers_least i ix r :
  (forall p ix', fst (parse_parameter_steps i ix) = (Ok r p, ix') -> (List.length (frag i) <= List.length (frag r) + steps_of (parse_parameter_steps i ix))%nat) /\
  (forall o, fst (parse_optional_steps i) = Ok r o -> (List.length (frag i) <= List.length (frag r) + steps_of (parse_optional_steps i))%nat) /\
  (forall a, fst (parse_alternative_steps i) = Ok r a -> (List.length (frag i) <= List.length (frag r) + steps_of (parse_alternative_steps i))%nat) /\
  (forall a, fst (parse_alternation_steps i) = Ok r a -> (List.length (frag i) <= List.length (frag r) + steps_of (parse_alternation_steps i))%nat) /\
  (forall x ix', fst (parse_single_expression_steps i ix) = (Ok r x, ix') ->
     (List.length (frag i) <= List.length (frag r) + steps_of (parse_single_expression_steps i ix))%nat) /\
  (forall e, fst (parse_expression_steps i) = Ok r e -> (List.length (frag i) <= List.length (frag r) + steps_of (parse_expression_steps i))%nat).
Proof.
  split; [intros p ix' E; apply (parameter_paid (S (List.length (frag i))) i ix r p); unfold parse_parameter_steps in E; now rewrite E|].
  split; [intros o; apply optional_paid|]. split; [intros a; apply alternative_paid|]. split; [intros a; apply alternation_paid|].
  split; [intros x ix' E; apply (single_expression_paid i ix r x); now rewrite E|].
  intros e E. unfold parse_expression_steps, many0_steps in *. exact (tick_paid_st _ 1 _ (many0_loop_paid _ single_expression_paid _ _ i 0) r e E).
Qed.
