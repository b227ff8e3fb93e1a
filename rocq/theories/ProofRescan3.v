(** Steps of rejected expressions by the lengths of the words before the error. *)
From Coq Require Import PeanoNat.
From Verif Require Import ProofExpand3 SpecRescan ProofSteps5 ProofRescan ProofParse.

Lemma single_at_ok o l p x r ix : wf_single x -> rest_ok x r -> id_is x ix -> ix < usize_max ->
  fst (parse_single_expression_steps (at_ o l p (src_single x ++ r)) ix)
  = (Ok (at_ o l (p ++ src_single x) r) (map_single (span_at o l) (place_single p x)), next_id x ix).
Proof.
  intros W R D H. rewrite parse_single_expression_same, parse_single_at by assumption.
  assert (E : c_single p (src_single x ++ r) ix = COk (p ++ src_single x) r (place_single p x)).
  { apply c_single_ok_iff. exists x. repeat split; auto. }
  rewrite E. cbn [lift bump]. f_equal. now rewrite <- (next_id_place p).
Qed.
Lemma single_frag o l p x : map_single frag (map_single (span_at o l) (place_single p x)) = x.
Proof.
  rewrite map_single_map. pose proof (map_place [x] p) as H. cbn [place map_expression map] in H. injection H as H. exact H.
Qed.
(** A word that is all right is read before an error comes. *)
Lemma error_no_word s er b r : single_error s er -> s = src_branch b ++ r -> items_ok b -> word_end r -> src_branch b = [].
Proof.
  intros H E Hb Hr. destruct b as [|x b]; [reflexivity|]. exfalso.
  assert (Ho : one_branch s) by (exists (x :: b), r; auto).
  destruct H as [H|H].
  - apply parameter_error_head in H as [r1 E1].
    apply (word_end_no_branch s []) with (q := src_branch (x :: b)) (r := r) (x := place_branch [] (x :: b)).
    + rewrite E1. cbn. tauto.
    + apply c_branch_ok_iff. exists (x :: b). repeat split; auto; try apply Hb; try easy. now apply word_end_branch_end.
  - destruct (proj2 (c_alternation_err_iff [] s) Ho) as [e1 He].
    rewrite (proj2 (c_alternation_fail_iff [] s (after [] er))) in He by eauto. easy.
Qed.
Lemma word_before_error s er : single_error s er -> forall e ix, Forall wf_single e -> all_rest_ok' e s -> ids_from ix e ->
  ix + N.of_nat (List.length (source e)) <= usize_max ->
  forall b r, source e ++ s = src_branch b ++ r -> items_ok b -> word_end r -> (List.length (src_branch b) <= word_length e)%nat.
Proof.
  intros H. induction e as [|x e IH]; intros ix W R D B b r E Hb Hr.
  - cbn in E. rewrite (error_no_word s er b r H E Hb Hr). cbn. lia.
  - destruct b as [|z b]; [cbn; lia|]. inversion W as [|? ? Wx We]; subst. destruct R as [Rx Re], D as [Dx De].
    rewrite source_cons, app_length in B. pose proof (wf_single_not_nil x Wx) as Nx.
    assert (Lx : (0 < List.length (src_single x))%nat) by (destruct (src_single x); [easy|cbn; lia]).
    assert (Hix : ix < usize_max) by lia.
    destruct (single_in_word 0 0 [] z b r ix Hb Hr Hix) as (y & Ey & My).
    rewrite <- E, source_cons, <- app_assoc, single_at_ok in Ey by assumption.
    assert (Er : source e ++ s = src_branch b ++ r).
    { apply (f_equal (fun q => match q with (Ok i _, _) => frag i | _ => [] end)) in Ey. now rewrite !frag_at in Ey. }
    assert (Exy : x = match z with AltOptional q => ExOptional q | AltText t => ExText t end).
    { rewrite <- My. apply (f_equal (fun q => match q with (Ok _ v, _) => Some (map_single frag v) | _ => None end)) in Ey.
      rewrite single_frag in Ey. now injection Ey. }
    destruct Hb as [Hb1 Hb2]. inversion Hb1; subst x; subst.
    assert (Hn : (next_id (match z with AltOptional q => ExOptional q | AltText t => ExText t end : single_expression str) ix) = ix) by now destruct z.
    rewrite Hn in De. specialize (IH ix We Re De ltac:(lia) b r Er (conj H3 (linked_tail _ _ _ Hb2)) Hr).
    rewrite src_branch_cons, app_length. destruct z as [q|t]; cbn [word_length src_alternative] in *; rewrite ?app_length; cbn [List.length s_ c_]; cbn; lia.
Qed.
Lemma loop_rejected s er : single_error s er -> forall e fuel acc o l p ix, Forall wf_single e -> all_rest_ok' e s -> ids_from ix e ->
  ix + N.of_nat (List.length (source e)) < usize_max ->
  (snd (many0_loop_steps fuel parse_single_expression_steps acc (at_ o l p (source e ++ s)) ix)
   <= 300 * List.length (source e) + 201 * List.length s + 92 * rescanned e + 144)%nat.
Proof.
  intros H. induction e as [|x e IH]; intros fuel acc o l p ix W R D B; (destruct fuel as [|fuel]; cbn [many0_loop_steps]; [cbn [snd]; lia|]);
    rewrite snd_tick, snd_then.
  - cbn [source map List.concat app rescanned List.length].
    assert (Hix : ix < usize_max) by lia.
    assert (E : exists er', fst (parse_single_expression_steps (at_ o l p s) ix) = (Bad (BFailure er'), ix)).
    { rewrite parse_single_expression_same, parse_single_at by assumption.
      rewrite (proj2 (c_single_fail_iff p s ix (after p er))) by eauto. cbn [lift bump]. eauto. }
    destruct E as [er' ->]. cbn [snd]. pose proof (single_costs (at_ o l p s) ix) as [_ HC]. unfold len in HC. rewrite frag_at in HC. lia.
  - pose proof (word_before_error s er H (x :: e) ix W R D ltac:(lia)) as HW.
    inversion W as [|? ? Wx We]; subst. destruct R as [Rx Re], D as [Dx De].
    rewrite source_cons, app_length in B. pose proof (wf_single_not_nil x Wx) as Nx.
    assert (Lx : (0 < List.length (src_single x))%nat) by (destruct (src_single x); [easy|cbn; lia]).
    assert (Hix : ix < usize_max) by lia.
    rewrite source_cons, <- app_assoc in *.
    pose proof (single_at_ok o l p x (source e ++ s) ix Wx Rx Dx Hix) as E.
    destruct (single_ok_cost _ _ _ _ _ E) as [F HC]. rewrite E. cbn [fst snd].
    unfold len in HC. rewrite !frag_at, !app_length in HC. rewrite app_length. cbn [rescanned].
    match goal with |- context [if ?c then _ else _] => destruct c end; cbn [snd].
    + destruct HC as [HC|(e0 & EA & HC)]; [lia|].
      destruct (dropped_cost _ _ EA) as (b & r0 & Hf & Hb & Hr0 & HD). rewrite frag_at in Hf. specialize (HW b r0 Hf Hb Hr0). lia.
    + assert (Bn : next_id x ix + N.of_nat (List.length (source e)) < usize_max).
      { unfold next_id. destruct (is_parameter x); lia. }
      pose proof (IH fuel (map_single (span_at o l) (place_single p x) :: acc) o l (p ++ src_single x) _ We Re De Bn) as HI.
      destruct HC as [HC|(e0 & EA & HC)]; [lia|].
      destruct (dropped_cost _ _ EA) as (b & r0 & Hf & Hb & Hr0 & HD). rewrite frag_at in Hf. specialize (HW b r0 Hf Hb Hr0). lia.
Qed.
Lemma single_error_some s er : single_error s er -> s <> [].
Proof.
  intros [H|H] ->; [apply parameter_error_head in H as [r Hr]; discriminate|]. apply alternation_error_head in H. now apply H.
Qed.
Lemma rejected_by_words s er : addressable s -> expression_parse s = RetErr er ->
  exists p r e, s = p ++ r /\ r <> [] /\ expression_parse p = RetOk e /\
    (steps_of (expression_parse_steps s) <= 300 * List.length s + 92 * rescanned (map_expression frag e) + 146)%nat.
Proof.
  intros Hs HE.
  apply parse_err_iff in HE as (er1 & HX & _); [|exact Hs].
  apply expression_error_iff in HX as (e & s' & er2 & W & R & D & -> & X & _).
  pose proof (single_error_some _ _ X) as Ns.
  assert (Ls : (0 < List.length s')%nat) by (destruct s'; [easy|cbn; lia]).
  unfold addressable in Hs. rewrite app_length in Hs.
  assert (We : wf e).
  { split; [exact W|]. apply adjacency' in R as [R _]; [|exact W]. split; [now apply linked_iff|now apply ids_from_iff]. }
  exists (source e), s', (locate 0 1 e). split; [reflexivity|]. split; [exact Ns|]. split; [apply round_trip; [exact We|unfold addressable; lia]|].
  rewrite map_locate. unfold steps_of, expression_parse_steps. rewrite snd_then. 
  unfold parse_expression_steps, many0_steps. cbn [fst snd]. rewrite ?fst_tick, ?snd_tick.
  replace (span_new (source e ++ s')) with (at_ 0 1 [] (source e ++ s')) by (unfold at_, span_at; cbn; reflexivity).
  pose proof (loop_rejected s' er2 X e (S (List.length (frag (at_ 0 1 [] (source e ++ s'))))) [] 0 1 [] 0 W R D ltac:(lia)) as HL.
  rewrite app_length.
  cbn [snd]. lia.
Qed.
