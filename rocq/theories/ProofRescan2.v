(** Words are read again: the steps are at least those. *)
From Coq Require Import PeanoNat.
From Verif Require Import ProofExpand3 SpecRescan ProofSteps5 ProofRescan ProofLeast.

Lemma word_scanned i b r : frag i = src_branch b ++ r -> items_ok b -> word_end r ->
  (List.length (src_branch b) <= snd (many1_steps parse_alternative_steps i))%nat.
Proof.
  intros E Hb Hr. destruct b as [|x b]; [cbn; lia|].
  pose proof (many1_paid _ alternative_paid i) as P. unfold paid in P.
  assert (Q : fst (many1_steps parse_alternative_steps i) = lift (off i) (line i) (map (map_alternative (span_at (off i) (line i)))) (COk (src_branch (x :: b)) r (place_branch [] (x :: b)))).
  { rewrite (many1_same _ _ parse_alternative_same). transitivity (many1 parse_alternative (at_ (off i) (line i) [] (frag i))); [f_equal; apply span_any|].
    rewrite branch_at.
    f_equal. apply c_branch_ok_iff. exists (x :: b). repeat split; auto; try apply Hb; try easy. now apply word_end_branch_end. }
  cbn [lift] in Q. specialize (P _ _ Q). rewrite frag_at, E, app_length in P. lia.
Qed.
Definition in_a_word {I} (y : single_expression I) : bool := match y with ExText _ | ExOptional _ => true | _ => false end.
Lemma starts_word i st r y st' : st < usize_max -> fst (parse_single_expression_steps i st) = (Ok r y, st') -> in_a_word y = true ->
  exists x b r0, frag i = src_branch (x :: b) ++ r0 /\ items_ok (x :: b) /\ word_end r0.
Proof.
  intros Hst E Hy. rewrite parse_single_expression_same, (span_any i), parse_single_at in E by assumption.
  destruct (c_single [] (frag i) st) as [q0 r1 z|z|z] eqn:Ec; cbn [lift] in E; try discriminate.
  injection E as _ Ey _. apply c_single_ok_iff in Ec as (x & Hw & Es & Hr & _ & _ & Ez). subst z.
  destruct x as [a|o|p|t|w]; cbn in Ey; subst y; try discriminate; cbn in Hw, Hr.
  - destruct Hr as (b & r0 & [Hb Hl] & Er & H0). exists (AltOptional o), b, r0. rewrite src_branch_cons, <- app_assoc, Es, Er. split; [reflexivity|].
    split; [|exact H0]. split; [constructor; assumption|]. destruct b; [easy|]. split; [|exact Hl]. unfold not_texts. cbn. tauto.
  - destruct Hr as (He & b & r0 & [Hb Hl] & Er & H0). exists (AltText t), b, r0. rewrite src_branch_cons, <- app_assoc, Es, Er. split; [reflexivity|].
    split; [|exact H0]. split; [constructor; assumption|]. destruct b as [|z b]; [easy|]. split; [|exact Hl].
    inversion Hb; subst. rewrite src_branch_cons, <- app_assoc in He. apply ends_app_alternative in He; [|assumption]. unfold not_texts. tauto.
Qed.
Lemma loop_rescans fuel : forall acc i st r l st',
  fst (many0_loop_steps fuel parse_single_expression_steps acc i st) = (Ok r l, st') -> frag r = [] ->
  st + N.of_nat (len i) <= usize_max ->
  exists e, l = rev acc ++ e /\
    (rescanned (map_expression frag e) <= snd (many0_loop_steps fuel parse_single_expression_steps acc i st))%nat /\
    (forall b r0, frag i = src_branch b ++ r0 -> items_ok b -> word_end r0 ->
       (word_length (map_expression frag e) <= List.length (src_branch b))%nat).
Proof.
  induction fuel as [|fuel IH]; intros acc i st r l st'; cbn [many0_loop_steps]; [easy|].
  rewrite fst_tick, snd_tick, fst_then, snd_then.
  destruct (fst (parse_single_expression_steps i st)) as [[i1 y|b] st1] eqn:E; cbn [fst snd].
  - destruct (input_len i1 =? input_len i) eqn:En; [easy|]. intros Hl Hr Hst.
    destruct (single_ok_cost _ _ _ _ _ E) as [F _]. pose proof (from_len _ _ F) as HL.
    assert (Hlt : (len i1 < len i)%nat).
    { destruct (Nat.eq_dec (len i1) (len i)) as [D|D]; [|lia]. exfalso. destruct F as [t Ht].
      unfold len in D. rewrite Ht, app_length in D. destruct t; [|cbn in D; lia]. unfold input_len in En. rewrite Ht in En.
      cbn [app] in En. now rewrite N.eqb_refl in En. }
    assert (Hix : st < usize_max) by lia.
    pose proof (single_index _ _ _ _ _ E Hix) as Hst1.
    destruct (IH (y :: acc) i1 st1 r l st' Hl Hr ltac:(lia)) as (e & -> & HS & HW).
    exists (y :: e). cbn [rev]. rewrite <- app_assoc. split; [reflexivity|].
    assert (HB : forall b r0, frag i = src_branch b ++ r0 -> items_ok b -> word_end r0 ->
       (word_length (map_expression frag (y :: e)) <= List.length (src_branch b))%nat).
    { intros b r0 Hf Hb Hr0. destruct b as [|x b].
      - destruct (in_a_word y) eqn:Ey; [|unfold map_expression; cbn [map]; destruct y; cbn; try lia; discriminate].
        exfalso. destruct (starts_word _ _ _ _ _ Hix E Ey) as (x & b & r1 & Hf1 & Hb1 & Hr1). cbn [src_branch map List.concat app] in Hf.
        rewrite <- Hf in Hr0. apply (word_end_no_branch _ [] Hr0 (src_branch (x :: b)) r1 (place_branch [] (x :: b))).
        apply c_branch_ok_iff. exists (x :: b). repeat split; auto; try apply Hb1; try easy. now apply word_end_branch_end.
      - destruct (single_in_word (off i) (line i) [] x b r0 st Hb Hr0 Hix) as (y' & E' & Hy).
        rewrite <- Hf, <- span_any, E in E'. injection E' as -> -> ->.
        specialize (HW b r0). rewrite frag_at in HW. specialize (HW eq_refl).
        destruct Hb as [Hb1 Hb2]. inversion Hb1; subst.
        specialize (HW (conj H2 (linked_tail _ _ _ Hb2)) Hr0).
        unfold map_expression in *. cbn [map]. rewrite Hy, src_branch_cons, app_length. destruct x as [q|t]; cbn.
        + rewrite app_length. cbn. lia.
        + lia. }
    split; [|exact HB]. unfold map_expression in *. cbn [map rescanned].
    enough (word_length (map_single frag y :: map (map_single frag) e) <= snd (parse_single_expression_steps i st))%nat by lia.
    destruct (in_a_word y) eqn:Ey; [|destruct y; cbn; try lia; discriminate].
    destruct (starts_word _ _ _ _ _ Hix E Ey) as (x & b & r1 & Hf1 & Hb1 & Hr1).
    specialize (HB _ _ Hf1 Hb1 Hr1). cbn [map] in HB.
    pose proof (word_scanned _ _ _ Hf1 Hb1 Hr1). pose proof (single_least i st). lia.
  - intros Hl Hr Hst. destruct b; try easy. injection Hl as -> <- _. exists []. rewrite app_nil_r. split; [reflexivity|].
    split; [unfold map_expression; cbn [map rescanned]; lia|]. intros b r0 _ _ _. unfold map_expression. cbn [map word_length]. lia.
Qed.
Lemma parse_rescans s e : addressable s -> expression_parse s = RetOk e ->
  (rescanned (map_expression frag e) <= steps_of (expression_parse_steps s))%nat.
Proof.
  intros Hs. rewrite <- expression_parse_same. unfold steps_of, expression_parse_steps. rewrite fst_then, snd_then. cbn [fst snd].
  unfold parse_expression_steps, many0_steps. cbn [fst snd]. rewrite fst_tick, snd_tick.
  destruct (fst (many0_loop_steps (S (List.length (frag (span_new s)))) parse_single_expression_steps [] (span_new s) 0)) as [[r l|[]] st'] eqn:E;
    cbn [fst]; try easy.
  destruct (input_len r =? 0) eqn:En; [|easy]. intros [= ->].
  apply loop_rescans in E as (e' & -> & H & _).
  - cbn [rev app]. lia.
  - apply N.eqb_eq in En. now apply blen_nil_iff in En.
  - unfold len. cbn [span_new frag]. unfold addressable in Hs. lia.
Qed.
