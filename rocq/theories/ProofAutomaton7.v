(** The automaton of the regex of an expression with custom parameters keeps the order of C82, if no matcher has a loop
    around nothing. *)
From Verif Require Export ProofAutomaton6 ProofPrefer.
Require Import Lia PeanoNat.

Section Names.
  Context (digits spaces words : ranges).
  Notation moving_loops := (SpecAutomaton.moving_loops (in_ranges digits) (in_ranges spaces) (in_ranges words)).
  Notation moving h := (moving_loops (unhir h)).
  Lemma erase_cat l : erase (mk_cat l) = mk_cat (map erase l).
  Proof. induction l as [|r [|r' l] IH]; [reflexivity|reflexivity|]. change (mk_cat (r :: r' :: l)) with (RCat r (mk_cat (r' :: l))). cbn [erase]. rewrite IH. reflexivity. Qed.
  Lemma erase_alt l : erase (ralt l) = ralt (map erase l).
  Proof. induction l as [|r l IH]; [reflexivity|]. change (ralt (r :: l)) with (RAlt r (ralt l)). cbn [erase]. rewrite IH. reflexivity. Qed.
  Lemma erase_nameless h : erase (unhir (nameless h)) = erase (unhir h).
  Proof.
    induction h as [|t|k|l|min max g h IH|i n h IH|l IH|l IH] using hir_ind'; try reflexivity; cbn [nameless unhir erase].
    - now rewrite IH.
    - exact IH.
    - rewrite !erase_cat, !map_map. f_equal. induction IH as [|x l Hx Hl Hi]; [reflexivity|]. cbn [map]. now rewrite Hx, Hi.
    - rewrite !erase_alt, !map_map. f_equal. induction IH as [|x l Hx Hl Hi]; [reflexivity|]. cbn [map]. now rewrite Hx, Hi.
  Qed.
  Lemma moving_nameless h : moving (nameless h) <-> moving h.
  Proof.
    induction h as [|t|k|l|min max g h IH|i n h IH|l IH|l IH] using hir_ind'; try reflexivity; cbn [nameless].
    - cbn [unhir SpecAutomaton.moving_loops]. rewrite IH. apply and_iff_compat_l.
      assert (Ht : texts_of digits spaces words (fun _ => True) (unhir (nameless h)) (unhir h)).
      { eapply texts_trans; [apply erase_texts|]. rewrite erase_nameless. apply texts_sym, erase_texts. }
      split; intros H Hm p q c Hc.
      + destruct (proj2 (Ht p [] q (Forall_nil _)) (ex_intro _ _ Hc)) as [d Hd]. now apply (H Hm p q d).
      + destruct (proj1 (Ht p [] q (Forall_nil _)) (ex_intro _ _ Hc)) as [d Hd]. now apply (H Hm p q d).
    - exact IH.
    - rewrite !hcat_moving, Forall_map. induction IH as [|x l Hx Hl Hi]; [split; constructor|]. now rewrite !Forall_cons_iff, Hx, Hi.
    - rewrite !halt_moving, Forall_map. induction IH as [|x l Hx Hl Hi]; [split; constructor|]. now rewrite !Forall_cons_iff, Hx, Hi.
  Qed.
  Lemma same_moving h h' : nameless h = nameless h' -> moving h -> moving h'.
  Proof. intros E H. apply moving_nameless. rewrite <- E. now apply moving_nameless. Qed.

  Context (Htab : tables_ok digits spaces words).
  (** A regex that is translated, anywhere, to one whose loops move. *)
  Definition moves (r : re) : Prop := forall i, moving (join_alts (fst (branches digits spaces words r i))).
  Lemma moves_of r : re_ok r -> moving_loops r -> moves r.
  Proof. intros Hok Hm i. apply moving_join_alts. now apply moving_branches. Qed.
  Lemma moves_compiled r : moving_loops (compiled digits spaces words r) -> moves r.
  Proof. intros H i. rewrite (branches_anywhere digits spaces words r i 1). exact H. Qed.
  Lemma moves_cat a b : moves a -> moves b -> moves (RCat a b).
  Proof.
    intros Ha Hb i. cbn [Hir.branches]. specialize (Ha i). destruct (branches digits spaces words a i) as [l j]. specialize (Hb j).
    destruct (branches digits spaces words b j) as [m k]. cbn [fst join_alts] in *. apply moving_concat. repeat constructor; assumption.
  Qed.
  Lemma moves_mk_cat l : Forall moves l -> moves (mk_cat l).
  Proof.
    induction l as [|r [|r' l] IH]; intros H; [intros i; exact I|now inversion H|]. change (mk_cat (r :: r' :: l)) with (RCat r (mk_cat (r' :: l))).
    inversion_clear H. apply moves_cat; auto.
  Qed.
End Names.

Section Whole.
  Context (digits spaces words : ranges) (Htab : tables_ok digits spaces words) (wrap : bool) (get : provider span).
  Notation moving_loops := (SpecAutomaton.moving_loops (in_ranges digits) (in_ranges spaces) (in_ranges words)).
  Notation moves := (moves digits spaces words).
  Notation exactly := (exactly digits spaces words wrap).
  Notation custom_re := (custom_re frag digits spaces words (show wrap) get).
  Lemma matcher_moves t r id : regex_new t = Done r -> exactly r -> moving_loops r -> Forall moves (matcher_re digits spaces words (show wrap) t id).
  Proof.
    intros Hr [Ht Ho] Hm. unfold matcher_re. rewrite Hr. pose proof (regex_new_ok t r Hr) as Hok. destruct (has_outer r).
    - destruct (Ho eq_refl) as [Hc Hw]. destruct (reread_display digits spaces words Htab wrap t r Hr Ht Hc Hw) as [_ H].
      destruct (H id) as (r' & E & Er). unfold printed. rewrite E. constructor; [|constructor]. apply moves_compiled. unfold compiled. rewrite Er.
      eapply same_moving; [symmetry; eapply rename_nameless; eassumption|]. now apply (compiled_moving digits spaces words Htab).
    - constructor; [|constructor]. intros i. cbn [Hir.branches]. pose proof (moves_of digits spaces words Htab r Hok Hm (i + 1)) as H.
      destruct (branches digits spaces words r (i + 1)) as [l j]. exact H.
  Qed.
  Lemma proper_moves r : re_ok r -> loops_ok r = true -> moves r.
  Proof. intros Hok H. apply moves_of; [exact Htab|exact Hok|]. now apply proper_moving, loops_ok_sound. Qed.
  Lemma cat_loops l : loops_ok (mk_cat l) = true -> forallb loops_ok l = true.
  Proof.
    induction l as [|r [|r' l] IH]; intros H; [reflexivity|cbn in *; now rewrite H|]. change (mk_cat (r :: r' :: l)) with (RCat r (mk_cat (r' :: l))) in H.
    cbn [loops_ok] in H. apply andb_prop in H as [H1 H2]. change (forallb loops_ok (r :: r' :: l)) with (loops_ok r && forallb loops_ok (r' :: l)). now rewrite H1, IH.
  Qed.
  Lemma whole_moves e : Forall (custom_valid frag get (fun r => exactly r /\ moving_loops r)) (parameters e) ->
    re_ok (re_by frag custom_re e) -> moves (re_by frag custom_re e).
  Proof.
    intros Hv Hok. unfold re_by in *. apply ok_mk_cat in Hok. apply moves_mk_cat. inversion_clear Hok as [|? ? H1 H2].
    constructor; [now apply proper_moves|]. apply Forall_app in H2 as [H2 H3]. apply Forall_app. split; [|constructor; [now apply proper_moves|constructor]].
    clear H1 H3. apply Forall_forall. intros y Hy. pose proof (proj1 (Forall_forall _ _) H2 y Hy) as Hyok. apply in_flat_map in Hy as (x & Hx & Hy).
    assert (Hb : In y (re_single frag (builtin_re frag) x) -> moves y).
    { intros Hb. apply proper_moves; [exact Hyok|]. pose proof (loops_of frag [x]) as Hl. unfold re_of, re_by in Hl. apply cat_loops in Hl. rewrite forallb_forall in Hl. apply Hl. right.
      cbn [flat_map]. rewrite app_nil_r. apply in_or_app. now left. }
    destruct x as [a|o|p|u|u]; try (apply Hb, Hy). cbn [re_single] in Hy, Hb. unfold ProofParams.custom_re in Hy.
    rewrite Forall_forall in Hv. specialize (Hv p (in_parameters e p Hx)). unfold custom_valid in Hv. destruct (get (par_input p)) as [t|]; [|now apply Hb].
    destruct Hv as (r & Hr & He & Hm). pose proof (matcher_moves t r (par_id p) Hr He Hm) as H. rewrite Forall_forall in H. now apply H.
  Qed.
  Lemma custom_automaton s e t r : addressable s -> expression_parse s = RetOk e ->
    Forall (custom_valid frag get (fun r => exactly r /\ moving_loops r)) (parameters e) ->
    regex_with_parameters digits spaces words (show wrap) get s = XOk t r -> forall subject,
    automaton_runs (in_ranges digits) (in_ranges spaces) (in_ranges words) (compiled digits spaces words r) subject =
      Some (hir_captures digits spaces words r subject).
  Proof.
    intros Hs He Hv Hr subject. unfold automaton_runs, hir_captures. apply automaton_finds.
    assert (Hv' : Forall (custom_valid frag get exactly) (parameters e)).
    { eapply Forall_impl; [|exact Hv]. unfold custom_valid. intros p. destruct (get (par_input p)); [|trivial]. intros (x & H1 & H2 & _). now exists x. }
    assert (Hc : Forall (custom_checked frag get) (parameters e)).
    { eapply Forall_impl; [|exact Hv']. intros p Hp. eapply custom_valid_checked, Hp. }
    pose proof (custom_ok digits spaces words (show wrap) get s t r Hr) as Hok.
    destruct (whole_read digits spaces words (show wrap) get s e He Hc (exactly_adds digits spaces words Htab wrap get e Hv')) as [[E _]|[E _]]; rewrite E in Hr; [|discriminate].
    assert (r = re_by frag custom_re e) as -> by congruence. apply (whole_moves e Hv Hok 1).
  Qed.
  Lemma automaton_best s e t r : addressable s -> expression_parse s = RetOk e ->
    Forall (custom_valid frag get (fun r => exactly r /\ moving_loops r)) (parameters e) ->
    regex_with_parameters digits spaces words (show wrap) get s = XOk t r ->
    plain_digits (in_ranges digits) -> forall subject c, Forall scalar subject ->
      automaton_runs (in_ranges digits) (in_ranges spaces) (in_ranges words) (compiled digits spaces words r) subject = Some (Some c) <->
      exists l, best_in frag (tried digits spaces words frag get) (custom_prefers digits spaces words frag get) e [] subject l /\
        c = Some subject :: List.concat (map snd l).
  Proof.
    intros Hs He Hv Hr Hd subject c Hsub. rewrite (custom_automaton s e t r Hs He Hv Hr).
    assert (Hv' : Forall (custom_valid frag get exactly) (parameters e)).
    { eapply Forall_impl; [|exact Hv]. unfold custom_valid. intros p. destruct (get (par_input p)); [|trivial]. intros (x & H1 & H2 & _). now exists x. }
    rewrite <- (custom_takes_best digits spaces words Htab wrap get s e t r Hs He Hv' Hr Hd subject c Hsub). split; congruence.
  Qed.
End Whole.

(** The automaton has at most six states for each character of the expression, and five more. *)
Lemma expression_states digits spaces words : tables_ok digits spaces words -> forall s t r, addressable s -> expression_regex s = XOk t r ->
  (List.length (program (in_ranges digits) (in_ranges spaces) (in_ranges words) (compiled digits spaces words r)) <= 6 * List.length s + 5)%nat.
Proof.
  intros Htab s t r Hs Hr. pose proof (program_fit (in_ranges digits) (in_ranges spaces) (in_ranges words) (compiled digits spaces words r)).
  pose proof (compiled_weight digits spaces words Htab r (expression_ok s t r Hr)). pose proof (regex_weight s t r Hs Hr). lia.
Qed.
