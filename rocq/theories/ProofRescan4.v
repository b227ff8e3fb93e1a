(** Rejected expressions: the words before the error are read again. *)
From Coq Require Import PeanoNat.
From Verif Require Import ProofExpand3 SpecRescan ProofSteps5 ProofRescan ProofRescan2 ProofRescan3 ProofLeast ProofParse.

Lemma word_covered s : forall e ix, Forall wf_single e -> all_rest_ok' e s -> ids_from ix e ->
  ix + N.of_nat (List.length (source e)) <= usize_max ->
  forall b r, source e ++ s = src_branch b ++ r -> items_ok b -> word_end r -> (word_length e <= List.length (src_branch b))%nat.
Proof.
  induction e as [|x e IH]; intros ix W R D B b r E Hb Hr; [cbn; lia|].
  inversion W as [|? ? Wx We]; subst. destruct R as [Rx Re], D as [Dx De].
  rewrite source_cons, app_length in B. pose proof (wf_single_not_nil x Wx) as Nx.
  assert (Lx : (0 < List.length (src_single x))%nat) by (destruct (src_single x); [easy|cbn; lia]).
  assert (Hix : ix < usize_max) by lia.
  pose proof (single_at_ok 0 0 [] x (source e ++ s) ix Wx Rx Dx Hix) as EX.
  destruct b as [|z b].
  - destruct (in_a_word x) eqn:Ex; [|destruct x; cbn; try lia; discriminate]. exfalso.
    assert (Ey : in_a_word (map_single (span_at 0 0) (place_single [] x)) = true) by now destruct x.
    destruct (starts_word _ _ _ _ _ Hix EX Ey) as (z & b & r1 & Hf & Hb1 & Hr1). rewrite frag_at in Hf.
    rewrite source_cons, <- app_assoc in E. cbn [src_branch map List.concat app] in E. rewrite <- E, Hf in Hr.
    apply (word_end_no_branch _ [] Hr (src_branch (z :: b)) r1 (place_branch [] (z :: b))).
    apply c_branch_ok_iff. exists (z :: b). repeat split; auto; try apply Hb1; try easy. now apply word_end_branch_end.
  - destruct (single_in_word 0 0 [] z b r ix Hb Hr Hix) as (y & Ey & My).
    rewrite <- E, source_cons, <- app_assoc, EX in Ey.
    assert (Er : source e ++ s = src_branch b ++ r).
    { apply (f_equal (fun q => match q with (Ok i _, _) => frag i | _ => [] end)) in Ey. now rewrite !frag_at in Ey. }
    assert (Exy : x = match z with AltOptional q => ExOptional q | AltText t => ExText t end).
    { rewrite <- My. apply (f_equal (fun q => match q with (Ok _ v, _) => Some (map_single frag v) | _ => None end)) in Ey.
      rewrite single_frag in Ey. now injection Ey. }
    clear EX Ey. destruct Hb as [Hb1 Hb2]. inversion Hb1 as [|? ? Hz Hbs]; subst x; subst.
    assert (Hn : (next_id (match z with AltOptional q => ExOptional q | AltText t => ExText t end : single_expression str) ix) = ix) by now destruct z.
    rewrite Hn in De. specialize (IH ix We Re De ltac:(lia) b r Er (conj Hbs (linked_tail _ _ _ Hb2)) Hr).
    rewrite src_branch_cons, app_length. destruct z as [q|t]; cbn [word_length src_alternative] in *; rewrite ?app_length; cbn; lia.
Qed.
Lemma loop_rejected_least s : forall e fuel acc o l p ix, Forall wf_single e -> all_rest_ok' e s -> ids_from ix e ->
  ix + N.of_nat (List.length (source e)) < usize_max -> (List.length (source e ++ s) < fuel)%nat ->
  (rescanned e <= snd (many0_loop_steps fuel parse_single_expression_steps acc (at_ o l p (source e ++ s)) ix))%nat.
Proof.
  induction e as [|x e IH]; intros fuel acc o l p ix W R D B Hf; [cbn [rescanned]; lia|].
  destruct fuel as [|fuel]; [lia|]. cbn [many0_loop_steps]. rewrite snd_tick, snd_then.
  pose proof (word_covered s (x :: e) ix W R D ltac:(lia)) as HW.
  inversion W as [|? ? Wx We]; subst. destruct R as [Rx Re], D as [Dx De].
  rewrite source_cons, app_length in B. pose proof (wf_single_not_nil x Wx) as Nx.
  assert (Lx : (0 < List.length (src_single x))%nat) by (destruct (src_single x); [easy|cbn; lia]).
  assert (Hix : ix < usize_max) by lia.
  rewrite source_cons, <- app_assoc in *.
  pose proof (single_at_ok o l p x (source e ++ s) ix Wx Rx Dx Hix) as E. rewrite E. cbn [fst snd].
  rewrite app_length in Hf.
  assert (En : (input_len (at_ o l (p ++ src_single x) (source e ++ s)) =? input_len (at_ o l p (src_single x ++ source e ++ s))) = false).
  { unfold input_len. rewrite !frag_at, (blen_app (src_single x)). apply N.eqb_neq. destruct (blen (src_single x)) eqn:Eb; [|lia]. apply blen_nil_iff in Eb. now rewrite Eb in Lx. }
  rewrite En.
  assert (Bn : next_id x ix + N.of_nat (List.length (source e)) < usize_max).
  { unfold next_id. destruct (is_parameter x); lia. }
  pose proof (IH fuel (map_single (span_at o l) (place_single p x) :: acc) o l (p ++ src_single x) _ We Re De Bn ltac:(lia)) as HI.
  cbn [rescanned]. set (rest := snd (many0_loop_steps fuel _ _ _ _)) in *.
  enough (word_length (x :: e) <= snd (parse_single_expression_steps (at_ o l p (src_single x ++ source e ++ s)) ix))%nat by lia.
  destruct (in_a_word x) eqn:Ex; [|destruct x; cbn; try lia; discriminate].
  assert (Ey : in_a_word (map_single (span_at o l) (place_single p x)) = true) by now destruct x.
  destruct (starts_word _ _ _ _ _ Hix E Ey) as (z & b & r1 & Hf1 & Hb1 & Hr1).
  pose proof (word_scanned _ _ _ Hf1 Hb1 Hr1). rewrite frag_at in Hf1. specialize (HW _ _ Hf1 Hb1 Hr1).
  pose proof (single_least (at_ o l p (src_single x ++ source e ++ s)) ix). lia.
Qed.
Lemma rejected_rescans s er : addressable s -> expression_parse s = RetErr er ->
  exists p r e, s = p ++ r /\ r <> [] /\ expression_parse p = RetOk e /\
    (steps_of (expression_parse_steps s) <= 300 * List.length s + 92 * rescanned (map_expression frag e) + 146)%nat /\
    (rescanned (map_expression frag e) <= steps_of (expression_parse_steps s))%nat.
Proof.
  intros Hs HE. apply parse_err_iff in HE as (er1 & HX & _); [|exact Hs].
  apply expression_error_iff in HX as (e & s' & er2 & W & R & D & -> & X & _).
  pose proof (single_error_some _ _ X) as Ns.
  assert (Ls : (0 < List.length s')%nat) by (destruct s'; [easy|cbn; lia]).
  unfold addressable in Hs. rewrite app_length in Hs.
  assert (We : wf e).
  { split; [exact W|]. apply adjacency' in R as [R' _]; [|exact W]. split; [now apply linked_iff|now apply ids_from_iff]. }
  exists (source e), s', (locate 0 1 e). split; [reflexivity|]. split; [exact Ns|]. split; [apply round_trip; [exact We|unfold addressable; lia]|].
  rewrite map_locate. unfold steps_of, expression_parse_steps. rewrite snd_then.
  unfold parse_expression_steps, many0_steps. cbn [fst snd]. rewrite ?fst_tick, ?snd_tick.
  replace (span_new (source e ++ s')) with (at_ 0 1 [] (source e ++ s')) by (unfold at_, span_at; cbn; reflexivity).
  pose proof (loop_rejected s' er2 X e (S (List.length (frag (at_ 0 1 [] (source e ++ s'))))) [] 0 1 [] 0 W R D ltac:(lia)) as HL.
  pose proof (loop_rejected_least s' e (S (List.length (frag (at_ 0 1 [] (source e ++ s'))))) [] 0 1 [] 0 W R D ltac:(lia)) as HB.
  rewrite frag_at in HB at 1. specialize (HB ltac:(lia)).
  rewrite app_length. cbn [snd]. split; lia.
Qed.
