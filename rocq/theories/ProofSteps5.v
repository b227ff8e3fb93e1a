(** Steps of whole expressions: the upper bound, and inputs that come near it. *)
From Coq Require Import PeanoNat.
From Verif Require Export ProofSteps4.

Definition costs {S A} (p : span -> S -> counted (result A * S)) (i : span) (B : nat) : Prop :=
  forall st, match fst (fst (p i st)) with Ok r _ => from r i | Bad _ => True end /\
             (snd (p i st) <= B)%nat.
Fixpoint total (l : list nat) : nat := match l with [] => 0 | n :: l' => n + total l' end.

Lemma alt_from_costs {S A} (ps : list (span -> S -> counted (result A * S))) Bs i :
  Forall2 (fun p B => costs p i B) ps Bs -> forall e, costs (alt_from_steps ps e) i (total Bs).
Proof.
  induction 1 as [|p B ps Bs H _ IH]; intros e st; cbn [alt_from_steps total]; [cbn; lia|].
  rewrite fst_then, snd_then. destruct (H st) as [H1 H2].
  destruct (fst (p i st)) as [[r a|[]] st'] eqn:E; cbn [fst snd] in *; rewrite ?E in *; cbn [fst] in *;
    try (split; [assumption|lia]).
  destruct (IH (or_error e e0) st') as [H3 H4]. split; [assumption|lia].
Qed.
Lemma alt_costs {S A} (ps : list (span -> S -> counted (result A * S))) Bs i :
  Forall2 (fun p B => costs p i B) ps Bs -> costs (alt_steps ps) i (1 + total Bs).
Proof.
  intros H st. unfold alt_steps. rewrite fst_tick, snd_tick. destruct H as [|p B ps Bs H Hs]; [cbn; lia|].
  rewrite fst_then, snd_then. destruct (H st) as [H1 H2]. cbn [total].
  destruct (fst (p i st)) as [[r a|[]] st'] eqn:E; cbn [fst snd] in *; rewrite ?E in *; cbn [fst] in *;
    try (split; [assumption|lia]).
  destruct (alt_from_costs ps Bs i Hs e st') as [H3 H4]. split; [assumption|lia].
Qed.

Lemma pure_costs {S A} (p : counted_parser A) i B :
  match fst (p i) with Ok r _ => from r i | Bad _ => True end -> (snd (p i) <= B)%nat ->
  costs (S := S) (pure_steps p) i B.
Proof. intros H1 H2 st. unfold pure_steps. cbn [fst snd]. now split. Qed.
Lemma map_costs {A B} (p : counted_parser A) (g : A -> B) i n :
  match fst (p i) with Ok r _ => from r i | Bad _ => True end -> (snd (p i) <= n)%nat ->
  match fst (map_steps p g i) with Ok r _ => from r i | Bad _ => True end /\
  (snd (map_steps p g i) <= 1 + n)%nat.
Proof.
  intros H1 H2. unfold map_steps. rewrite fst_tick, snd_tick, fst_then, snd_then.
  destruct (fst (p i)); cbn [fst snd]; split; try assumption; lia.
Qed.
Lemma within_costs {A} w ko kb e f i (x : counted (result A)) : within w ko kb e f i x ->
  (ko <= kb)%nat -> (f <= e)%nat ->
  match fst x with Ok r _ => from r i | Bad _ => True end /\ (snd x <= kb * len i + e)%nat.
Proof.
  unfold within. destruct (fst x) as [r a|[]]; intros H Hk Hf.
  - destruct H as (F & L & S). split; [assumption|]. nia.
  - split; [exact I|]. nia.
  - now split.
  - now split.
  - now split.
  - now split.
Qed.
Lemma within_weaken {A} w ko kb e f e' i (x : counted (result A)) : within w ko kb e f i x -> (e <= e')%nat ->
  within w ko kb e' f i x.
Proof. unfold within. destruct (fst x) as [r a|[]]; intros H He; intuition lia. Qed.

Lemma looked_at_le f s : (looked_at f s <= List.length s)%nat.
Proof. induction s as [|c s IH]; cbn; [lia|]. destruct (f c); lia. Qed.
Lemma take_while1_costs f i :
  match fst (take_while1_steps f i) with Ok r _ => from r i | Bad _ => True end /\
  (snd (take_while1_steps f i) <= 2 * len i + 1)%nat.
Proof.
  unfold take_while1_steps. rewrite fst_tick, snd_tick.
  pose proof (looked_at_le (fun c => negb (f c)) (frag i)) as H. fold (len i) in H.
  assert (Hs : forall n, match fst (split_result_steps i n) with Ok r _ => from r i | Bad _ => True end /\
    (snd (split_result_steps i n) <= len i)%nat).
  { intros n. split; [|apply chars_length]. pose proof (split_within i n) as Hw. unfold within in Hw.
    destruct (fst (split_result_steps i n)); [apply Hw|exact I]. }
  destruct (find_bytes (fun c => negb (f c)) (frag i)) as [n|].
  - destruct (n =? 0); [cbn; split; [exact I|lia]|]. destruct (Hs n). split; [assumption|lia].
  - destruct (input_len i =? 0); [cbn; split; [exact I|lia]|]. destruct (Hs (input_len i)). split; [assumption|lia].
Qed.

Lemma single_costs i : costs parse_single_expression_steps i (201 * len i + 143).
Proof.
  intros st. unfold parse_single_expression_steps.
  match goal with |- context [alt_steps ?ps i st] =>
    assert (H : costs (alt_steps ps) i (1 + total [1 + (95 * len i + 110); 1 + (48 * len i + 3);
      1 + (48 * len i + 3); 1 + (8 * len i + 18); 1 + (2 * len i + 1)]%nat)) end.
  2:{ specialize (H st). cbn [total] in H. destruct H as [H1 H2]. split; [exact H1|lia]. }
  apply alt_costs. repeat (apply Forall2_cons); [..|apply Forall2_nil].
  - pose proof (parse_alternation_within i) as H.
    destruct (map_costs parse_alternation_steps ExAlternation i (95 * len i + 110)) as [H1 H2].
    + destruct (fst (parse_alternation_steps i)); [apply H|exact I].
    + destruct (fst (parse_alternation_steps i)); [|exact H]. destruct H as [F H].
      pose proof (from_len _ _ F). lia.
    + apply pure_costs; assumption.
  - destruct (within_costs _ _ _ _ _ _ _ (within_weaken _ _ _ _ _ 3 _ _ (parse_optional_within i) ltac:(lia))
      ltac:(lia) ltac:(lia)) as [H1 H2].
    destruct (map_costs parse_optional_steps ExOptional i _ H1 H2). apply pure_costs; assumption.
  - intros ix.
    destruct (within_costs _ _ _ _ _ _ _ (within_weaken _ _ _ _ _ 3 _ _ (parse_parameter_within i ix) ltac:(lia))
      ltac:(lia) ltac:(lia)) as [H1 H2].
    unfold fst2 in H1, H2. cbn [fst snd] in H1, H2. rewrite fst_then, snd_then.
    destruct (fst (parse_parameter_steps i ix)) as [[r a|b] ix']; cbn [fst snd] in *; split; try assumption; lia.
  - destruct (within_costs _ _ _ _ _ _ _ (verify_esc_within is_without_whitespace i eq_refl)
      ltac:(lia) ltac:(lia)) as [H1 H2].
    destruct (map_costs (verify_steps (escaped_reserved_chars0_steps (take_while_steps is_without_whitespace))
       (fun s => 0 <? input_len s)) ExText i _ H1 H2). apply pure_costs; assumption.
  - destruct (take_while1_costs is_whitespace i) as [H1 H2].
    destruct (map_costs (take_while1_steps is_whitespace) ExWhitespaces i _ H1 H2). apply pure_costs; assumption.
Qed.

Lemma many0_costs fuel : forall acc i st B, (201 * len i + 143 < B)%nat ->
  (snd (many0_loop_steps fuel parse_single_expression_steps acc i st) <= fuel * B)%nat.
Proof.
  induction fuel as [|fuel IH]; intros acc i st B HB; cbn [many0_loop_steps]; [cbn; lia|].
  rewrite snd_tick, snd_then. destruct (single_costs i st) as [H1 H2].
  destruct (fst (parse_single_expression_steps i st)) as [[r a|[]] st']; cbn [fst snd] in *; try nia.
  destruct (input_len r =? input_len i); cbn [snd]; [nia|].
  pose proof (from_len _ _ H1). specialize (IH (a :: acc) r st' B ltac:(lia)). lia.
Qed.
Lemma expression_costs i :
  (snd (parse_expression_steps i) <= (len i + 1) * (201 * len i + 144) + 1)%nat.
Proof.
  unfold parse_expression_steps, many0_steps. cbv zeta. cbn [snd]. rewrite snd_tick. fold (len i).
  pose proof (many0_costs (S (len i)) [] i 0 (201 * len i + 144)%nat ltac:(lia)). lia.
Qed.
Lemma expression_parse_costs s :
  (steps_of (expression_parse_steps s) <= 201 * ((List.length s + 1) * (List.length s + 1)))%nat.
Proof.
  unfold steps_of, expression_parse_steps. rewrite snd_then. cbn [snd].
  pose proof (expression_costs (span_new s)) as H. unfold len in H. cbn [span_new frag] in H.
  set (n := List.length s) in *. nia.
Qed.

(** ** Lower bound *)
Lemma many1_loop_least {A} (p : counted_parser A) fuel : forall acc i r l,
  fst (many1_loop_steps fuel p acc i) = Ok r l ->
  (List.length l <= List.length acc + snd (many1_loop_steps fuel p acc i))%nat.
Proof.
  induction fuel as [|fuel IH]; intros acc i r l; cbn [many1_loop_steps]; [easy|].
  rewrite fst_tick, snd_tick, fst_then, snd_then.
  destruct (fst (p i)) as [r' a|[]]; cbn [fst snd]; try easy.
  - destruct (input_len r' =? input_len i); [easy|]. intros H. apply IH in H. cbn [List.length] in H. lia.
  - injection 1 as <- <-. rewrite rev_length. lia.
Qed.
Lemma many1_least {A} (p : counted_parser A) i r l :
  fst (many1_steps p i) = Ok r l -> (List.length l <= snd (many1_steps p i))%nat.
Proof.
  unfold many1_steps. rewrite fst_tick, snd_tick, fst_then, snd_then.
  destruct (fst (p i)) as [r' a|[]]; cbn [fst snd]; try easy.
  intros H. apply many1_loop_least in H. cbn [List.length] in H. lia.
Qed.
Lemma single_least i st : (snd (many1_steps parse_alternative_steps i) <= snd (parse_single_expression_steps i st))%nat.
Proof.
  unfold parse_single_expression_steps, alt_steps, pure_steps. rewrite snd_tick, snd_then. cbn [snd].
  unfold map_steps at 1, parse_alternation_steps at 1. rewrite !snd_tick, !snd_then, !snd_tick, !snd_then.
  unfold alternation_list_steps at 1, separated_list1_steps at 1.
  rewrite !snd_then, !snd_tick, !snd_then. lia.
Qed.

Lemma linked_tail {A} (R : A -> A -> Prop) x b : linked R (x :: b) -> linked R b.
Proof. cbn. tauto. Qed.
Lemma word_end_nil : word_end []. Proof. exact I. Qed.
Lemma single_word o l p x b : items_ok (x :: b) ->
  exists y st', fst (parse_single_expression_steps (at_ o l p (src_branch (x :: b))) 0)
            = (Ok (at_ o l (p ++ src_alternative x) (src_branch b)) y, st') /\ st' = 0.
Proof.
  intros [Hw Hl]. rewrite parse_single_expression_same, parse_single_at by reflexivity.
  inversion Hw as [|? ? Hx Hb]; subst.
  assert (Hone : one_branch (src_branch b)).
  { exists b, []. rewrite app_nil_r. split; [split; [assumption|now apply linked_tail in Hl]|]. now split. }
  set (y := match x with AltOptional q => ExOptional q | AltText t => ExText t end).
  assert (E : c_single p (src_branch (x :: b)) 0
    = COk (p ++ src_alternative x) (src_branch b) (place_single p y)).
  { apply c_single_ok_iff. exists y. unfold y. rewrite src_branch_cons. destruct x as [q|t]; cbn in Hx |- *.
    - repeat split; try apply Hx; try exact Hone.
    - repeat split; try apply Hx; try exact Hone.
      destruct b as [|z b]; [exact I|]. inversion Hb; subst. rewrite src_branch_cons.
      apply ends_app_alternative; [assumption|]. cbn in Hl. unfold not_texts in Hl. cbn in Hl. tauto. }
  rewrite E. cbn [lift]. eexists _, _. split; [reflexivity|]. unfold y. now destruct x.
Qed.
Lemma branch_word o l p b : items_ok b -> b <> [] ->
  (List.length b <= snd (many1_steps parse_alternative_steps (at_ o l p (src_branch b))))%nat.
Proof.
  intros Hb Hn.
  destruct (fst (many1_steps parse_alternative_steps (at_ o l p (src_branch b)))) as [r x|e] eqn:E.
  - pose proof (many1_least _ _ _ _ E) as H.
    rewrite (many1_same _ _ parse_alternative_same), branch_at in E.
    rewrite (proj2 (c_branch_ok_iff p (src_branch b) (p ++ src_branch b) [] (place_branch p b))) in E.
    2:{ exists b. rewrite app_nil_r. repeat split; auto; apply Hb. }
    cbn [lift] in E. injection E as _ <-. rewrite map_length in H.
    assert (Hlen : forall b p, List.length (place_branch p b) = List.length b).
    { induction b0 as [|x b0 IH]; intros p0; cbn [place_branch List.length]; [reflexivity|]. now rewrite IH. }
    now rewrite Hlen in H.
  - rewrite (many1_same _ _ parse_alternative_same), branch_at in E.
    rewrite (proj2 (c_branch_ok_iff p (src_branch b) (p ++ src_branch b) [] (place_branch p b))) in E; [easy|].
    exists b. rewrite app_nil_r. repeat split; auto; apply Hb.
Qed.
Lemma word_least b : forall fuel acc o l p, items_ok b -> (List.length b < fuel)%nat ->
  (List.length b * (List.length b + 1) <=
   2 * snd (many0_loop_steps fuel parse_single_expression_steps acc (at_ o l p (src_branch b)) 0%N))%nat.
Proof.
  induction b as [|x b IH]; intros fuel acc o l p Hb Hf; [cbn; lia|].
  destruct fuel as [|fuel]; [lia|]. cbn [many0_loop_steps]. rewrite snd_tick, snd_then.
  pose proof (single_least (at_ o l p (src_branch (x :: b))) 0) as H1.
  pose proof (branch_word o l p (x :: b) Hb ltac:(discriminate)) as H2.
  destruct (single_word o l p x b Hb) as (y & st' & E & ->). rewrite E.
  assert (Hne : input_len (at_ o l (p ++ src_alternative x) (src_branch b)) =?
                input_len (at_ o l p (src_branch (x :: b))) = false).
  { apply N.eqb_neq. rewrite !input_len_at, src_branch_cons, blen_app. destruct Hb as [Hw _].
    inversion Hw as [|? ? Hx _]; subst. destruct (alternative_head x Hx) as (c & t & -> & _).
    cbn [blen]. pose proof (len_utf8_pos c). lia. }
  rewrite Hne. destruct Hb as [Hw Hl]. inversion Hw as [|? ? _ Hb']; subst.
  specialize (IH fuel (y :: acc) o l (p ++ src_alternative x) (conj Hb' (linked_tail _ _ _ Hl))
    ltac:(cbn [List.length] in Hf; lia)).
  cbn [List.length] in *. lia.
Qed.
Lemma length_src_branch b : Forall wf_alternative b -> (List.length b <= List.length (src_branch b))%nat.
Proof.
  induction 1 as [|x b Hx _ IH]; [cbn; lia|]. rewrite src_branch_cons, app_length.
  destruct (alternative_head x Hx) as (c & t & -> & _). cbn [List.length]. lia.
Qed.
Lemma parse_word_least b : items_ok b ->
  (List.length b * (List.length b + 1) <= 2 * steps_of (expression_parse_steps (src_branch b)))%nat.
Proof.
  intros Hb. unfold steps_of, expression_parse_steps, parse_expression_steps, many0_steps.
  rewrite snd_then. cbv zeta. cbn [snd]. rewrite snd_tick.
  pose proof (length_src_branch b (proj1 Hb)).
  pose proof (word_least b (S (List.length (frag (span_new (src_branch b))))) [] 0 1 [] Hb
    ltac:(cbn [span_new frag]; lia)) as H1.
  change (at_ 0 1 [] (src_branch b)) with (span_new (src_branch b)) in H1. lia.
Qed.
Lemma parse_words_least b : Forall wf_alternative b ->
  (forall l x y r, b = l ++ x :: y :: r -> ~ (is_text x /\ is_text y)) ->
  (List.length b * (List.length b + 1) <= 2 * steps_of (expression_parse_steps (src_branch b)))%nat.
Proof. intros H1 H2. apply parse_word_least. split; [assumption|]. now apply linked_iff. Qed.

Fixpoint worst (k : nat) : single_alternation str :=
  match k with O => [] | S k' => AltText (s_ "a") :: AltOptional (mkOptional (s_ "b")) :: worst k' end.
Lemma worst_ok k : items_ok (worst k).
Proof.
  induction k as [|k [IH1 IH2]]; [split; [constructor|exact I]|]. split.
  - constructor; [|constructor; [|exact IH1]].
    + split; [discriminate|]. apply content_plain; [|constructor]. cbn. intuition easy.
    + split; [discriminate|]. apply content_plain; [|constructor]. cbn. intuition easy.
  - cbn [worst linked]. split; [intros [_ []]|]. split; [|exact IH2].
    destruct k; cbn [worst]; [exact I|]. intros [[] _].
Qed.
Lemma src_worst k : src_branch (worst k) = List.concat (repeat (s_ "a(b)") k).
Proof. induction k as [|k IH]; [reflexivity|]. cbn [worst repeat List.concat]. rewrite !src_branch_cons, IH. reflexivity. Qed.
Lemma length_worst k : List.length (worst k) = (2 * k)%nat.
Proof. induction k as [|k IH]; cbn [worst List.length]; lia. Qed.
Lemma worst_least k : (2 * (k * k) <= steps_of (expression_parse_steps (List.concat (repeat (s_ "a(b)") k))))%nat.
Proof.
  pose proof (parse_word_least _ (worst_ok k)) as H. rewrite src_worst, length_worst in H. lia.
Qed.
Lemma parameter_costs i ix : (steps_of (parse_parameter_steps i ix) <= 48 * len i + 3)%nat.
Proof.
  pose proof (within_costs _ _ _ _ _ _ _ (within_weaken _ _ _ _ _ 3 _ _ (parse_parameter_within i ix) ltac:(lia))
      ltac:(lia) ltac:(lia)) as [_ H]. exact H.
Qed.
Lemma optional_costs i : (steps_of (parse_optional_steps i) <= 48 * len i + 3)%nat.
Proof.
  pose proof (within_costs _ _ _ _ _ _ _ (within_weaken _ _ _ _ _ 3 _ _ (parse_optional_within i) ltac:(lia))
      ltac:(lia) ltac:(lia)) as [_ H]. exact H.
Qed.
Lemma alternative_costs i : (steps_of (parse_alternative_steps i) <= 48 * len i + 24)%nat.
Proof.
  pose proof (within_costs _ _ _ _ _ _ _ (parse_alternative_within i) ltac:(lia) ltac:(lia)) as [_ H]. exact H.
Qed.
Lemma alternation_costs i : (steps_of (parse_alternation_steps i) <= 95 * len i + 110)%nat.
Proof.
  pose proof (parse_alternation_within i) as H. unfold steps_of.
  destruct (fst (parse_alternation_steps i)); [|exact H]. destruct H as [F H]. pose proof (from_len _ _ F). lia.
Qed.
Lemma single_expression_costs i ix : (steps_of (parse_single_expression_steps i ix) <= 201 * len i + 143)%nat.
Proof. apply single_costs. Qed.
