(** Steps of an expression by the lengths of its words. *)
From Coq Require Import PeanoNat.
From Verif Require Import ProofExpand3 SpecRescan ProofSteps5.

Lemma word_end_no_slash r : word_end r -> forall o l p, exists e, tag (s_ "/") (at_ o l p r) = Bad (BError e).
Proof.
  intros H o l p. unfold tag. rewrite frag_at. destruct r as [|c r]; [cbn; eauto|].
  cbn in H. destruct H as [<-|[<-|[]]]; cbn; eauto.
Qed.
Lemma word_end_no_branch s p : word_end s -> forall q r x, c_branch p s <> COk q r x.
Proof.
  intros H q r x E. apply c_branch_ok_iff in E as ([|y b] & Hn & [Hw _] & -> & _); [easy|].
  inversion Hw as [|? ? Hy _]; subst. destruct (alternative_head y Hy) as (c & t & E & H1 & H2).
  rewrite src_branch_cons, E in H. cbn in H.
  assert (C : c = c_ " " \/ c = c_ "{") by (destruct H as [<-|[<-|[]]]; [left|right]; reflexivity).
  destruct y as [o|u]; cbn in H1, H2.
  - rewrite H2 in C by easy. destruct C; discriminate.
  - apply H1; [easy|]. destruct C; subst c; cbn; split; try tauto; easy.
Qed.
Lemma dropped_cost i e : fst (parse_alternation_steps i) = Bad (BError e) ->
  exists b r, frag i = src_branch b ++ r /\ items_ok b /\ word_end r /\
    (snd (parse_alternation_steps i) <= 92 * List.length (src_branch b) + 110)%nat.
Proof.
  intros E. pose proof E as E0. rewrite parse_alternation_same, (span_any i), parse_alternation_at in E0.
  set (o := off i) in *. set (l := line i) in *. set (s := frag i) in *.
  destruct (c_alternation [] s) as [q r a|e0|e0] eqn:Ec; cbn [lift] in E0; try discriminate. clear E0.
  destruct (proj1 (c_alternation_err_iff [] s) (ex_intro _ _ Ec)) as (b & r & Hb & Es & Hr). clear Ec e0.
  exists b, r. do 3 (split; [assumption|]).
  revert E. unfold parse_alternation_steps. rewrite fst_tick, snd_tick, fst_then, snd_then.
  unfold alternation_list_steps. rewrite !fst_then, !snd_then.
  pose proof (list_within i) as H. unfold within in H.
  assert (HS : forall r' a, fst (separated_list1_steps (tag_steps (s_ "/")) (many1_steps parse_alternative_steps) i) = Ok r' a ->
    (len i - len r' <= List.length (src_branch b))%nat).
  { intros r' a. rewrite (separated_list1_same _ _ _ _ (tag_same (s_ "/")) (many1_same _ _ parse_alternative_same) i).
    rewrite (span_any i) at 1. fold o l s. unfold separated_list1. rewrite branch_at. destruct b as [|x b].
    - cbn in Es. rewrite Es. destruct (c_branch [] r) as [q0 r0 a0|e0|e0] eqn:Eb; cbn [lift]; try discriminate.
      now apply (word_end_no_branch _ _ Hr) in Eb.
    - rewrite (proj2 (c_branch_ok_iff [] s (src_branch (x :: b)) r (place_branch [] (x :: b)))).
      2:{ exists (x :: b). repeat split; auto; try apply Hb; try easy. now apply word_end_branch_end. }
      cbn [lift]. cbn [separated_list1_loop]. destruct (word_end_no_slash r Hr o l (src_branch (x :: b))) as [e0 ->].
      intros [= <- _]. unfold len. rewrite frag_at. fold s. rewrite Es, app_length. lia. }
  destruct (fst (separated_list1_steps (tag_steps (s_ "/")) (many1_steps parse_alternative_steps) i)) as [r' a|bd] eqn:EL.
  - destruct H as (F & L & S). specialize (HS _ _ eq_refl).
    pose proof (peek_tag_steps (s_ "/") r') as Hp. change (List.length (s_ "/")) with 1%nat in Hp.
    rewrite !snd_then, !fst_then.
    destruct (fst (peek_steps (tag_steps (s_ "/")) r')) as [r1 a1|[]]; cbn [fst snd]; try discriminate;
      (destruct (Nat.eqb (List.length a) 1); cbn [fst snd]; [intros _; lia|]);
      rewrite fst_tick; destruct (contains_only_optional a); try discriminate; rewrite fst_tick;
      (destruct (span_len input_len a); [|discriminate]); rewrite fst_then; cbn [fst]; unfold fail_take_steps, fail_take; cbn [fst];
      destruct (take i n); discriminate.
  - destruct bd as [e0|e0| | |]; cbn [fst snd]; try discriminate.
    destruct e0; cbn [fst snd]; try (intros _; lia). destruct k; cbn [fst snd]; try (intros _; lia).
    rewrite !fst_then, !snd_then.
    pose proof (peek_tag_steps (s_ "/") i0) as Hp. change (List.length (s_ "/")) with 1%nat in Hp.
    destruct (fst (peek_steps (tag_steps (s_ "/")) i0)) as [r1 a1|[]]; cbn [fst snd]; try discriminate; try (intros _; lia).
    rewrite fst_then. unfold fail_take_steps, fail_take. cbn [fst]. destruct (take i0 1); discriminate.
Qed.

Definition modest {S A} (p : span -> S -> counted (result A * S)) (i : span) : Prop :=
  forall st, match fst (fst (p i st)) with
             | Ok r _ => from r i /\ snd (p i st) <= 13 * (len i - len r) + 20
             | Bad (BError _) => snd (p i st) <= 20
             | Bad _ => True
             end%nat.
Lemma modest_from {S A} (ps : list (span -> S -> counted (result A * S))) i : Forall (fun p => modest p i) ps ->
  forall e st r a st', fst (alt_from_steps ps e i st) = (Ok r a, st') ->
    from r i /\ (snd (alt_from_steps ps e i st) <= 13 * (len i - len r) + 20 * List.length ps)%nat.
Proof.
  induction 1 as [|p ps H _ IH]; intros e st r a st'; cbn [alt_from_steps]; [easy|].
  rewrite fst_then, snd_then. specialize (H st). cbn [List.length].
  destruct (fst (p i st)) as [[r0 a0|[]] st0] eqn:E; cbn [fst snd] in *; try easy.
  - injection 1 as <- <- <-. destruct H. split; [assumption|lia].
  - intros E1. apply IH in E1 as [F L]. split; [assumption|lia].
Qed.
Lemma modest_map {S A B} (p : counted_parser A) (g : A -> B) i w ko kb e f :
  within w ko kb e f i (p i) -> (ko <= 13)%nat -> (e <= 19)%nat -> (f <= 19)%nat ->
  modest (S := S) (pure_steps (map_steps p g)) i.
Proof.
  unfold within. intros H Hk He Hf st. unfold pure_steps, map_steps. cbn [fst snd]. rewrite fst_tick, snd_tick, fst_then, snd_then.
  destruct (fst (p i)) as [r a|[]]; cbn [fst snd]; try exact I.
  - destruct H as (F & L & K). split; [assumption|nia].
  - lia.
Qed.
Lemma take_while1_within f i : within (fun _ => 0%nat) 2 0 2 2 i (take_while1_steps f i) \/
  (exists b, fst (take_while1_steps f i) = Bad b /\ match b with BError _ => False | _ => True end).
Proof.
  unfold within, take_while1_steps. rewrite fst_tick, snd_tick.
  destruct (span_while f (frag i)) as [w r0] eqn:E. rewrite (find_bytes_while _ _ _ _ E).
  pose proof (looked_at_while _ _ _ _ E) as H. pose proof (span_while_app _ _ _ _ E) as Es.
  assert (G : match fst (split_result_steps i (blen w)) with
    | Ok r _ => from r i /\ snd (split_result_steps i (blen w)) = List.length w /\ len i - len r = List.length w
    | Bad (BError _) => False | Bad _ => True end%nat).
  { pose proof (split_within i (blen w)) as W. unfold within in W. revert W.
    unfold split_result_steps, split_result, take_split. cbn [fst snd].
    destruct (take_from i (blen w)) as [r1|] eqn:T; [|easy]. destruct (take i (blen w)); [|easy]. intros (F & _ & _). split; [exact F|].
    unfold take_from in T. rewrite Es, take_bytes_app, drop_bytes_app in T. injection T as <-. unfold len. cbn [frag].
    rewrite Es, chars_app, app_length. lia. }
  assert (Z : (match r0 with [] => input_len i | _ => blen w end) = blen w).
  { destruct r0; [|reflexivity]. unfold input_len. now rewrite Es, app_nil_r. }
  destruct r0 as [|c r0].
  - rewrite Z. destruct (blen w =? 0) eqn:Ez; cbn [fst snd].
    + left. apply N.eqb_eq in Ez. apply blen_nil_iff in Ez. subst w. cbn in H. lia.
    + destruct (fst (split_result_steps i (blen w))) as [r a|b]; [left|right; exists b; split; [reflexivity|now destruct b]].
      destruct G as (F & S1 & S2). pose proof (from_len _ _ F). split; [assumption|lia].
  - destruct (blen w =? 0) eqn:Ez; cbn [fst snd].
    + left. apply N.eqb_eq in Ez. apply blen_nil_iff in Ez. subst w. cbn in H. lia.
    + destruct (fst (split_result_steps i (blen w))) as [r a|b]; [left|right; exists b; split; [reflexivity|now destruct b]].
      destruct G as (F & S1 & S2). pose proof (from_len _ _ F). split; [assumption|lia].
Qed.
Lemma single_ok_cost i st r y st' : fst (parse_single_expression_steps i st) = (Ok r y, st') ->
  from r i /\
  ((snd (parse_single_expression_steps i st) <= 93 * (len i - len r) + 112)%nat \/
   exists e, fst (parse_alternation_steps i) = Bad (BError e) /\
     (snd (parse_single_expression_steps i st) <= snd (parse_alternation_steps i) + 13 * (len i - len r) + 82)%nat).
Proof.
  unfold parse_single_expression_steps, alt_steps. rewrite fst_tick, snd_tick, fst_then, snd_then.
  assert (E1 : fst (pure_steps (map_steps parse_alternation_steps ExAlternation) i st)
    = (match fst (parse_alternation_steps i) with Ok r a => Ok r (ExAlternation a) | Bad b => Bad b end, st)).
  { unfold pure_steps, map_steps. cbn [fst]. rewrite fst_tick, fst_then. now destruct (fst (parse_alternation_steps i)). }
  assert (E2 : (snd (pure_steps (map_steps parse_alternation_steps ExAlternation) i st) <= 1 + snd (parse_alternation_steps i))%nat).
  { unfold pure_steps, map_steps. cbn [snd]. rewrite snd_tick, snd_then. destruct (fst (parse_alternation_steps i)); cbn [snd]; lia. }
  rewrite E1.
  pose proof (parse_alternation_within i) as HA.
  destruct (fst (parse_alternation_steps i)) as [r0 a|b] eqn:EA; cbn [fst snd].
  - intros E. assert (r0 = r) as <- by congruence. clear E. destruct HA as [F L]. split; [assumption|]. left. lia.
  - destruct b as [e|e| | |]; cbn [fst snd]; try discriminate. intros E.
    eapply modest_from in E; [|].
    + destruct E as [F L]. split; [assumption|]. right. exists e. split; [reflexivity|]. cbn [List.length] in L. lia.
    + repeat constructor.
      * eapply modest_map; [apply parse_optional_within|lia..].
      * intros ix. pose proof (parse_parameter_within i ix) as H. unfold within, fst2 in H. cbn [fst snd] in H.
        rewrite fst_then, snd_then. destruct (fst (parse_parameter_steps i ix)) as [[r1 a|[]] ix']; cbn [fst snd] in *; try exact I.
        -- destruct H as (F & L & K). split; [assumption|lia].
        -- lia.
      * eapply modest_map; [apply verify_esc_within; reflexivity|lia..].
      * destruct (take_while1_within is_whitespace i) as [H|(b & E3 & Hb)]; [eapply modest_map; [exact H|lia..]|].
        intros ix. unfold pure_steps, map_steps. cbn [fst snd]. rewrite fst_tick, fst_then, E3. cbn [fst]. now destruct b.
Qed.

Lemma single_in_word o l p x b r ix : items_ok (x :: b) -> word_end r -> ix < usize_max ->
  exists y, fst (parse_single_expression_steps (at_ o l p (src_branch (x :: b) ++ r)) ix)
      = (Ok (at_ o l (p ++ src_alternative x) (src_branch b ++ r)) y, ix) /\
    map_single frag y = match x with AltOptional q => ExOptional q | AltText t => ExText t end.
Proof.
  intros [Hw Hl] Hr Hix. rewrite parse_single_expression_same, parse_single_at by assumption.
  inversion Hw as [|? ? Hx Hb]; subst.
  assert (Hone : one_branch (src_branch b ++ r)).
  { exists b, r. split; [split; [assumption|now apply linked_tail in Hl]|]. now split. }
  set (y := match x with AltOptional q => ExOptional q | AltText t => ExText t end).
  assert (E : c_single p (src_branch (x :: b) ++ r) ix
    = COk (p ++ src_alternative x) (src_branch b ++ r) (place_single p y)).
  { apply c_single_ok_iff. exists y. unfold y. rewrite src_branch_cons, <- app_assoc. destruct x as [q|t]; cbn in Hx |- *.
    - repeat split; try apply Hx; try exact Hone.
    - repeat split; try apply Hx; try exact Hone.
      destruct b as [|z b].
      + cbn. destruct r as [|c r]; [exact I|]. cbn in Hr. destruct Hr as [<-|[<-|[]]]; cbn; split; try tauto; easy.
      + inversion Hb; subst. rewrite src_branch_cons, <- app_assoc.
        apply ends_app_alternative; [assumption|]. cbn in Hl. unfold not_texts in Hl. cbn in Hl. tauto. }
  rewrite E. cbn [lift]. eexists. split; [|].
  - f_equal. unfold y. now destruct x.
  - unfold y. now destruct x as [[q]|t].
Qed.
Lemma single_index i ix r y ix' : fst (parse_single_expression_steps i ix) = (Ok r y, ix') -> ix < usize_max -> ix' <= ix + 1.
Proof.
  rewrite parse_single_expression_same, (span_any i). intros E H. rewrite parse_single_at in E by assumption.
  injection E as _ <-. unfold bump. destruct (c_single _ _ _) as [q r0 z|z|z]; try lia. destruct (is_parameter z); lia.
Qed.
Lemma loop_by_words fuel : forall acc i st r l st',
  fst (many0_loop_steps fuel parse_single_expression_steps acc i st) = (Ok r l, st') -> frag r = [] ->
  st + N.of_nat (len i) <= usize_max ->
  exists e, l = rev acc ++ e /\
    (snd (many0_loop_steps fuel parse_single_expression_steps acc i st)
     <= 300 * len i + 92 * rescanned (map_expression frag e) + 144)%nat /\
    (forall b r0, frag i = src_branch b ++ r0 -> items_ok b -> word_end r0 ->
       (List.length (src_branch b) <= word_length (map_expression frag e))%nat).
Proof.
  induction fuel as [|fuel IH]; intros acc i st r l st'; cbn [many0_loop_steps]; [easy|].
  rewrite fst_tick, snd_tick, fst_then, snd_then.
  destruct (fst (parse_single_expression_steps i st)) as [[i1 y|b] st1] eqn:E; cbn [fst snd].
  - destruct (input_len i1 =? input_len i) eqn:En; [easy|]. intros Hl Hr Hst.
    destruct (single_ok_cost _ _ _ _ _ E) as [F HC]. pose proof (from_len _ _ F) as HL.
    assert (Hlt : (len i1 < len i)%nat).
    { destruct (Nat.eq_dec (len i1) (len i)) as [D|D]; [|lia]. exfalso. destruct F as [t Ht].
      unfold len in D. rewrite Ht, app_length in D. destruct t; [|cbn in D; lia]. unfold input_len in En. rewrite Ht in En.
      cbn [app] in En. now rewrite N.eqb_refl in En. }
    assert (Hix : st < usize_max) by lia.
    pose proof (single_index _ _ _ _ _ E Hix) as Hst1.
    destruct (IH (y :: acc) i1 st1 r l st' Hl Hr ltac:(lia)) as (e & -> & HS & HW).
    exists (y :: e). cbn [rev]. rewrite <- app_assoc. split; [reflexivity|].
    assert (HB : forall b r0, frag i = src_branch b ++ r0 -> items_ok b -> word_end r0 ->
       (List.length (src_branch b) <= word_length (map_expression frag (y :: e)))%nat).
    { intros b r0 Hf Hb Hr0. destruct b as [|x b]; [cbn; lia|].
      destruct (single_in_word (off i) (line i) [] x b r0 st Hb Hr0 Hix) as (y' & E' & Hy).
      rewrite <- Hf, <- span_any, E in E'. injection E' as -> -> ->. 
      specialize (HW b r0). rewrite frag_at in HW. specialize (HW eq_refl).
      destruct Hb as [Hb1 Hb2]. inversion Hb1; subst.
      specialize (HW (conj H2 (linked_tail _ _ _ Hb2)) Hr0).
      unfold map_expression in *. cbn [map]. rewrite Hy, src_branch_cons, app_length. destruct x as [q|t]; cbn.
      - rewrite app_length. cbn. lia.
      - lia. }
    split; [|exact HB]. unfold map_expression in *. cbn [map rescanned]. 
    destruct HC as [HC|(e0 & EA & HC)]; [lia|].
    destruct (dropped_cost _ _ EA) as (b & r0 & Hf & Hb & Hr0 & HD). specialize (HB b r0 Hf Hb Hr0).
    cbn [map] in HB. lia.
  - intros Hl Hr Hst. pose proof (single_costs i st) as [_ HC].
    destruct b; try easy. injection Hl as -> <- _. exists []. rewrite app_nil_r. split; [reflexivity|].
    unfold len in *. rewrite Hr in *. cbn [List.length] in *. split; [unfold map_expression; cbn [fst snd map rescanned]; lia|].
    intros b r0 Hf _ _. destruct (src_branch b); [cbn; lia|discriminate].
Qed.
Lemma parse_by_words s e : addressable s -> expression_parse s = RetOk e ->
  (steps_of (expression_parse_steps s) <= 300 * List.length s + 92 * rescanned (map_expression frag e) + 146)%nat.
Proof.
  intros Hs. rewrite <- expression_parse_same. unfold steps_of, expression_parse_steps. rewrite fst_then, snd_then. cbn [fst snd].
  unfold parse_expression_steps, many0_steps. cbn [fst snd]. rewrite fst_tick, snd_tick.
  destruct (fst (many0_loop_steps (S (List.length (frag (span_new s)))) parse_single_expression_steps [] (span_new s) 0)) as [[r l|[]] st'] eqn:E;
    cbn [fst]; try easy.
  destruct (input_len r =? 0) eqn:En; [|easy]. intros [= ->].
  apply loop_by_words in E as (e' & -> & H & _).
  - unfold len in H. cbn [span_new frag] in *. cbn [rev app]. lia.
  - apply N.eqb_eq in En. now apply blen_nil_iff in En.
  - unfold len. cbn [span_new frag]. unfold addressable in Hs. lia.
Qed.
Lemma rescanned_within w e : words_within w e -> (rescanned e <= w * List.length e)%nat.
Proof.
  induction e as [|x e IH]; intros H; [cbn; lia|]. cbn [rescanned List.length].
  pose proof (H [] (x :: e) eq_refl) as H0.
  assert (H1 : words_within w e). { intros l r ->. now apply (H (x :: l)). }
  specialize (IH H1). lia.
Qed.
Lemma nodes_of_source e : Forall wf_single e -> (List.length e <= List.length (source e))%nat.
Proof.
  induction 1 as [|x e H _ IH]; [cbn; lia|]. apply wf_single_not_nil in H. unfold source in *. cbn [map List.concat List.length].
  rewrite app_length. destruct (src_single x); [easy|]. cbn [List.length]. lia.
Qed.
Lemma parse_words_within w s e : addressable s -> expression_parse s = RetOk e -> words_within w (map_expression frag e) ->
  (steps_of (expression_parse_steps s) <= 300 * List.length s + 92 * (w * List.length s) + 146)%nat.
Proof.
  intros Hs He Hw. pose proof (parse_by_words s e Hs He) as H. apply rescanned_within in Hw.
  destruct (parsed_wf s e Hs He) as [[Hf _] Hsrc]. apply nodes_of_source in Hf. rewrite Hsrc in Hf. nia.
Qed.
