(** Proofs about the runs of an automaton: the backtracker answers with the first one that does not come back. *)
From Verif Require Export SpecRuns ProofPaths.
Require Import Lia PeanoNat Sorting.

Lemma before_more w w' u : before w w' -> before (w ++ u) w'.
Proof. intros (x & a & b & -> & ->). exists x, (a ++ u), b. now rewrite <- app_assoc. Qed.
Lemma before_both w w' u u' : before w w' -> before (w ++ u) (w' ++ u').
Proof. intros (x & a & b & -> & ->). exists x, (a ++ u), (b ++ u'). now rewrite <- !app_assoc. Qed.

Section Runs.
  Context (prog : list inst) (subject : str) (start : nat) (empty : slots).
  Notation run := (steadily prog subject).
  Notation succ := (succ prog subject).
  Notation turn := (turn prog start subject).
  (** What is left to do, with where the run has been and which ways it went. *)
  Record open := mkopen { o_pc : nat; o_p : nat; o_sl : slots; o_been : list (nat * nat); o_ways : list bool }.
  Definition cell (o : open) := (o_pc o, o_p o).
  Definition ends (o : open) (w : list bool) (f : slots) : Prop := run (o_been o) (o_pc o) (o_p o) (o_sl o) w f.
  Definition above (a b : open) : Prop := before (o_ways a) (o_ways b) /\ incl (o_been b) (o_been a).
  Record fit (q : nat) (P : list open) (vis : list (nat * nat)) : Prop := mkfit {
    f_sound : forall o w f, In o P -> ends o w f -> run [] start q empty (o_ways o ++ w) f;
    f_all : forall w f, run [] start q empty w f -> exists o w', In o P /\ w = o_ways o ++ w' /\ ends o w' f;
    f_order : StronglySorted above P;
    f_been : forall o, In o P -> incl (o_been o) vis;
    f_vis : forall v, In v vis -> nth_error prog (fst v) <> Some IMatch /\
      forall y, succ v y -> In y vis \/ (exists o, In o P /\ cell o = y /\ In v (o_been o)) \/ nth_error prog (fst y) = None }.

  Lemma run_none been pc p sl w f : nth_error prog pc = None -> ~ run been pc p sl w f.
  Proof. intros H Hr. inversion Hr; congruence. Qed.
  Lemma run_fresh been pc p sl w f : run been pc p sl w f -> ~ In (pc, p) been.
  Proof. intros Hr. now inversion Hr. Qed.
  (** Where the search has been, all runs come back. *)
  Lemma comes_back q P vis been0 : fit q P vis -> (forall o, In o P -> incl (o_been o) been0) ->
    forall been pc p sl w f, run been pc p sl w f -> incl been0 been -> In (pc, p) vis \/ nth_error prog pc = None -> False.
  Proof.
    intros Hf Hb. induction 1 as [been pc p sl H0 H1|been pc p sl w f t n c H0 H1 H2 H3 H4 IH|been pc p sl w f h n H0 H1 H2 H3 IH|been pc p sl w f a b H0 H1 H2 IH|been pc p sl w f a b H0 H1 H2 IH|been pc p sl w f i n H0 H1 H2 IH];
      intros Hi [Hv|Hv]; try congruence; destruct (f_vis _ _ _ Hf _ Hv) as [Hm Hy]; cbn [fst snd] in *; [congruence| | | | |];
      (apply IH; [now apply incl_tl|]).
    all: assert (Hz : forall y, succ (pc, p) y -> In y vis \/ nth_error prog (fst y) = None)
        by (intros y Hsy; destruct (Hy y Hsy) as [?|[(o & Ho & _ & Hov)|?]]; [now left| |now right]; exfalso; apply H0, Hi, (Hb o Ho), Hov).
    - apply (Hz (n, S p)). eapply s_one; eassumption.
    - apply (Hz (n, p)). eapply s_look; eassumption.
    - apply (Hz (a, p)). eapply s_first; eassumption.
    - apply (Hz (b, p)). eapply s_second; eassumption.
    - apply (Hz (n, p)). eapply s_save; eassumption.
  Qed.
  Lemma fit_skip q o P vis : fit q (o :: P) vis -> In (cell o) vis \/ nth_error prog (o_pc o) = None -> fit q P vis.
  Proof.
    intros Hf Hc. destruct (StronglySorted_inv (f_order _ _ _ Hf)) as [Hs Ha]. rewrite Forall_forall in Ha.
    split.
    - intros x w f Hx. apply (f_sound _ _ _ Hf). now right.
    - intros w f Hr. destruct (f_all _ _ _ Hf _ _ Hr) as (x & w' & [<-|Hx] & E & He); [|eauto].
      exfalso. refine (comes_back _ _ _ (o_been o) Hf _ _ _ _ _ _ _ He (incl_refl _) Hc).
      intros x [<-|Hx]; [apply incl_refl|now apply Ha].
    - exact Hs.
    - intros x Hx. apply (f_been _ _ _ Hf). now right.
    - intros v Hv. destruct (f_vis _ _ _ Hf v Hv) as [H1 H2]. split; [exact H1|]. intros y Hy.
      destruct (H2 y Hy) as [?|[(x & [<-|Hx] & Ex & Hvx)|?]]; [now left| |right; left; eauto|right; now right].
      subst y. destruct Hc; [now left|right; now right].
  Qed.
  Lemma fit_go q o P vis new : fit q (o :: P) vis -> ~ In (cell o) vis -> nth_error prog (o_pc o) <> Some IMatch ->
    (forall n, In n new -> o_been n = cell o :: o_been o /\ exists u, o_ways n = o_ways o ++ u) ->
    (forall n u w f, In n new -> o_ways n = o_ways o ++ u -> ends n w f -> ends o (u ++ w) f) ->
    (forall w f, ends o w f -> exists n u w', In n new /\ o_ways n = o_ways o ++ u /\ w = u ++ w' /\ ends n w' f) ->
    StronglySorted above new ->
    (forall y, succ (cell o) y -> exists n, In n new /\ cell n = y) ->
    fit q (new ++ P) (cell o :: vis).
  Proof.
    intros Hf Hv Hm Hn Hback Hforth Hsort Hsucc.
    destruct (StronglySorted_inv (f_order _ _ _ Hf)) as [Hs Ha]. rewrite Forall_forall in Ha. split.
    - intros x w f Hx He. apply in_app_or in Hx as [Hx|Hx].
      + destruct (Hn x Hx) as [_ [u Hu]]. rewrite Hu, <- app_assoc. apply (f_sound _ _ _ Hf); [now left|]. now apply (Hback x).
      + apply (f_sound _ _ _ Hf); [now right|exact He].
    - intros w f Hr. destruct (f_all _ _ _ Hf _ _ Hr) as (x & w' & [<-|Hx] & -> & He).
      + destruct (Hforth _ _ He) as (n & u & w'' & H1 & H2 & -> & H4). exists n, w''. split; [apply in_or_app; now left|]. split; [|exact H4].
        now rewrite H2, app_assoc.
      + exists x, w'. split; [apply in_or_app; now right|]. auto.
    - assert (Hbefore : forall n x, In n new -> In x P -> above n x).
      { intros n x Hin Hx. destruct (Hn n Hin) as [H1 [u H2]]. destruct (Ha x Hx) as [H3 H4]. split.
        - rewrite H2. now apply before_more.
        - rewrite H1. now apply incl_tl. }
      clear - Hsort Hs Hbefore. induction Hsort as [|n new Hsort IH Hall]; [exact Hs|]. cbn [app]. constructor.
      + apply IH. intros n' x Hin. apply Hbefore. now right.
      + apply Forall_app. split; [exact Hall|]. apply Forall_forall. intros x. apply Hbefore. now left.
    - intros x Hx. apply in_app_or in Hx as [Hx|Hx].
      + destruct (Hn x Hx) as [-> _]. intros v [<-|Hin]; [now left|right]. now apply (f_been _ _ _ Hf o (or_introl eq_refl)).
      + apply incl_tl. apply (f_been _ _ _ Hf). now right.
    - intros v [<-|Hin].
      + split; [exact Hm|]. intros y Hy. destruct (Hsucc y Hy) as (n & H1 & H2). right. left. exists n.
        split; [apply in_or_app; now left|]. split; [exact H2|]. destruct (Hn n H1) as [-> _]. now left.
      + destruct (f_vis _ _ _ Hf v Hin) as [H1 H2]. split; [exact H1|]. intros y Hy.
        destruct (H2 y Hy) as [?|[(x & [<-|Hx] & Ex & Hvx)|?]]; [left; now right|left; left; now subst| |right; now right].
        right. left. exists x. split; [apply in_or_app; now right|]. auto.
  Qed.

  (** * The stack of the backtracker. *)
  Inductive gtask := GStep (pc p : nat) (been : list (nat * nat)) (w : list bool) | GRestore (i : nat) (old : option nat).
  Definition plain (g : gtask) : task := match g with GStep pc p _ _ => Step pc p | GRestore i old => Restore i old end.
  Fixpoint opens (g : list gtask) (sl : slots) : list open :=
    match g with
    | [] => []
    | GStep pc p b w :: g => mkopen pc p sl b w :: opens g sl
    | GRestore i old :: g => opens g (set_slot i old sl)
    end.
  Definition kept (c : search_state) : Prop :=
    (bt_at c <= List.length subject)%nat /\ settle (bt_stack c) (bt_slots c) = empty /\
    (exists g, map plain g = bt_stack c /\ fit (bt_at c) (opens g (bt_slots c)) (bt_visited c)) /\
    forall q w f, (q < bt_at c)%nat -> ~ run [] start q empty w f.

  Lemma no_more q vis : fit q [] vis -> forall w f, ~ run [] start q empty w f.
  Proof. intros Hf w f Hr. destruct (f_all _ _ _ Hf _ _ Hr) as (o & w' & [] & _). Qed.

  Ltac inv_run H := try (unfold ends in H; cbn in H); inversion H; subst; try congruence.
  Lemma kept_turn c c' : kept c -> turn c = inl c' -> kept c'.
  Proof.
    intros (Ha & Hs & (g & Hg & Hf) & Hq). destruct c as [from stack sl vis]. unfold Automaton.turn.
    cbn [bt_at bt_stack bt_slots bt_visited] in *. subst stack. destruct g as [|[pc p been ways|i old] g]; cbn [map plain opens settle] in *.
    - destruct (Nat.ltb_spec from (List.length subject)) as [Hl|]; [|discriminate]. intros E. injection E as <-.
      split; [exact Hl|]. split; [exact Hs|]. cbn [bt_at bt_stack bt_slots bt_visited]. split.
      + exists [GStep start (S from) [] []]. split; [reflexivity|]. cbn [opens]. split.
        * intros o w f [<-|[]] He. rewrite <- Hs. exact He.
        * intros w f Hr. exists (mkopen start (S from) sl [] []), w. split; [now left|]. split; [reflexivity|]. rewrite <- Hs in Hr. exact Hr.
        * repeat constructor.
        * intros o [<-|[]] v [].
        * intros v Hv. destruct (f_vis _ _ _ Hf v Hv) as [H1 H2]. split; [exact H1|]. intros y Hy.
          destruct (H2 y Hy) as [?|[(x & [] & _)|?]]; [now left|right; now right].
      + intros q w f Hlt. destruct (Nat.eq_dec q from) as [->|]; [now apply (no_more from vis)|apply Hq; lia].
    - set (o := mkopen pc p sl been ways) in Hf.
      assert (Hskip : In (pc, p) vis \/ nth_error prog pc = None -> kept (mkstate from (map plain g) sl vis)).
      { intros Hc. split; [exact Ha|]. split; [exact Hs|]. split; [|exact Hq]. exists g. split; [reflexivity|]. now apply (fit_skip _ o). }
      destruct (visited pc p vis) eqn:Hvis; [intros E; injection E as <-; apply Hskip; left; now apply visited_iff|].
      assert (Hnv : ~ In (pc, p) vis) by (intros Hin; apply visited_iff in Hin; congruence).
      assert (Hnb : ~ In (pc, p) been) by (intros Hin; apply Hnv, (f_been _ _ _ Hf o (or_introl eq_refl)), Hin).
      assert (Hgo : forall frames new sl', settle (map plain (frames ++ g)) sl' = empty ->
        opens (frames ++ g) sl' = new ++ opens g sl ->
        fit from (new ++ opens g sl) ((pc, p) :: vis) ->
        kept (mkstate from (map plain frames ++ map plain g) sl' ((pc, p) :: vis))).
      { intros frames new sl' H1 H2 H3. split; [exact Ha|]. split; [cbn [bt_stack bt_slots]; now rewrite <- map_app|]. split; [|exact Hq].
        exists (frames ++ g). cbn [bt_stack bt_slots bt_at bt_visited]. split; [apply map_app|]. now rewrite H2. }
      assert (Hnone : nth_error prog pc <> Some IMatch -> (forall w f, ~ ends o w f) -> (forall y, ~ succ (pc, p) y) ->
        kept (mkstate from (map plain g) sl ((pc, p) :: vis))).
      { intros H1 H2 H3. apply (Hgo [] [] sl Hs eq_refl). apply (fit_go from o (opens g sl) vis []); try assumption; try easy.
        - intros w f He. now apply H2 in He.
        - constructor.
        - intros y Hy. now apply H3 in Hy. }
      assert (Hone : forall n p' , nth_error prog pc <> Some IMatch ->
        (forall w f, ends o w f <-> ends (mkopen n p' sl ((pc, p) :: been) ways) w f) -> (forall y, succ (pc, p) y -> y = (n, p')) ->
        kept (mkstate from (Step n p' :: map plain g) sl ((pc, p) :: vis))).
      { intros n p' H1 H2 H3. apply (Hgo [GStep n p' ((pc, p) :: been) ways] [mkopen n p' sl ((pc, p) :: been) ways] sl Hs eq_refl).
        apply (fit_go from o (opens g sl) vis); try assumption.
        - intros x [<-|[]]. split; [reflexivity|]. exists []. now rewrite app_nil_r.
        - intros x u w f [<-|[]] Eu He. cbn [o_ways o] in Eu. assert (u = []) as -> by (apply (app_inv_head ways); now rewrite app_nil_r).
          now apply H2.
        - intros w f He. eexists _, [], w. split; [now left|]. split; [now rewrite app_nil_r|]. split; [reflexivity|]. now apply H2.
        - repeat constructor.
        - intros y Hy. apply H3 in Hy as ->. eexists. split; [now left|reflexivity]. }
      destruct (nth_error prog pc) as [[t n|h n|a b|i n| |]|] eqn:Hpc; cbv zeta beta.
      + destruct (nth_error subject p) as [ch|] eqn:Hch.
        * destruct (t ch) eqn:Ht; intros E; injection E as <-.
          -- apply Hone; [discriminate| |].
             ++ intros w f. split; intros He; [inv_run He|eapply r_one; eassumption].
                assert (n0 = n) as -> by congruence. assumption.
             ++ intros y Hy. inv_run Hy.
          -- apply Hnone; [discriminate|intros w f He; inv_run He|intros y Hy; inv_run Hy].
        * intros E; injection E as <-. apply Hnone; [discriminate|intros w f He; inv_run He|intros y Hy; inv_run Hy].
      + destruct (h _ _) eqn:Ht; intros E; injection E as <-.
        * apply Hone; [discriminate| |].
          -- intros w f. split; intros He; [inv_run He|eapply r_look; eassumption].
             assert (n0 = n) as -> by congruence. assumption.
          -- intros y Hy. inv_run Hy.
        * apply Hnone; [discriminate|intros w f He; inv_run He|intros y Hy; inv_run Hy].
      + intros E; injection E as <-.
        pose (x := mkopen a p sl ((pc, p) :: been) (ways ++ [false])). pose (y := mkopen b p sl ((pc, p) :: been) (ways ++ [true])).
        apply (Hgo [GStep a p ((pc, p) :: been) (ways ++ [false]); GStep b p ((pc, p) :: been) (ways ++ [true])] [x; y] sl Hs eq_refl).
        apply (fit_go from o (opens g sl) vis); try assumption; try congruence.
        * cbn [o_pc o]. rewrite Hpc. discriminate.
        * intros z [<-|[<-|[]]]; (split; [reflexivity|]); eexists; reflexivity.
        * intros z u w f [<-|[<-|[]]] Eu He; cbn [o_ways o x y] in Eu; apply app_inv_head in Eu; subst u; [eapply r_first|eapply r_second]; eassumption.
        * intros w f He. unfold ends in He. cbn [o_been o_pc o_p o_sl o] in He. inv_run He.
          -- assert (a0 = a) as -> by congruence. exists x, [false]. eexists. split; [now left|]. split; [reflexivity|]. split; [reflexivity|]. assumption.
          -- assert (b0 = b) as -> by congruence. exists y, [true]. eexists. split; [right; now left|]. split; [reflexivity|]. split; [reflexivity|]. assumption.
        * constructor; [repeat constructor|]. constructor; [|constructor]. split; [|apply incl_refl]. exists ways, [], []. now split.
        * intros z Hz. inv_run Hz; [exists x|exists y]; (split; [auto using in_eq, in_cons|]); unfold cell; cbn; congruence.
      + intros E; injection E as <-.
        pose (x := mkopen n p (set_slot i (Some p) sl) ((pc, p) :: been) ways).
        apply (Hgo [GStep n p ((pc, p) :: been) ways; GRestore i (nth i sl None)] [x]).
        * cbn [app map plain settle]. now rewrite set_slot_restore.
        * cbn [app opens]. now rewrite set_slot_restore.
        * apply (fit_go from o (opens g sl) vis); try assumption.
          -- cbn [o_pc o]. rewrite Hpc. discriminate.
          -- intros z [<-|[]]. split; [reflexivity|]. exists []. now rewrite app_nil_r.
          -- intros z u w f [<-|[]] Eu He. cbn [o_ways o x] in Eu. assert (u = []) as -> by (apply (app_inv_head ways); now rewrite app_nil_r).
             eapply r_save; eassumption.
          -- intros w f He. unfold ends in He. cbn [o_been o_pc o_p o_sl o] in He. inv_run He. exists x, [], w. split; [now left|].
             split; [now rewrite app_nil_r|]. split; [reflexivity|]. assert (i0 = i) as -> by congruence. assert (n0 = n) as -> by congruence. assumption.
          -- repeat constructor.
          -- intros z Hz. inv_run Hz. exists x. split; [now left|]. unfold cell; cbn; congruence.
      + intros E; injection E as <-. apply Hnone; [discriminate|intros w f He; inv_run He|intros y Hy; inv_run Hy].
      + discriminate.
      + intros E. injection E as <-. apply Hskip. now right.
    - intros E. injection E as <-. split; [exact Ha|]. split; [exact Hs|]. split; [|exact Hq]. exists g. split; [reflexivity|exact Hf].
  Qed.
  Definition first_slots (x : option slots) : Prop :=
    match x with
    | Some f => exists q w, (q <= List.length subject)%nat /\ run [] start q empty w f /\
        (forall w' f', run [] start q empty w' f' -> w' = w \/ before w w') /\ forall q' w' f', (q' < q)%nat -> ~ run [] start q' empty w' f'
    | None => forall q w f, (q <= List.length subject)%nat -> ~ run [] start q empty w f
    end.
  Lemma kept_result c x : kept c -> turn c = inr x -> first_slots x.
  Proof.
    intros (Ha & Hs & (g & Hg & Hf) & Hq). destruct c as [from stack sl vis]. unfold Automaton.turn.
    cbn [bt_at bt_stack bt_slots bt_visited] in *. subst stack. destruct g as [|[pc p been ways|i old] g]; cbn [map plain opens settle] in *; [| |discriminate].
    - destruct (Nat.ltb_spec from (List.length subject)) as [|Hl]; [discriminate|]. intros E. injection E as <-.
      intros q w f Hle. destruct (Nat.eq_dec q from) as [->|]; [now apply (no_more from vis)|apply Hq; lia].
    - destruct (visited pc p vis) eqn:Hvis; [discriminate|].
      destruct (nth_error prog pc) as [[t n|h n|a b|i n| |]|] eqn:Hpc; cbv zeta beta; try discriminate.
      + destruct (nth_error subject p) as [c|]; [destruct (t c)|]; discriminate.
      + destruct (h _ _); discriminate.
      + intros E. injection E as <-. set (o := mkopen pc p sl been ways) in Hf.
        assert (Hnb : ~ In (pc, p) been).
        { intros Hin. apply (f_been _ _ _ Hf o (or_introl eq_refl)) in Hin. apply visited_iff in Hin. congruence. }
        exists from, ways. split; [exact Ha|]. split; [|split; [|exact Hq]].
        * rewrite <- (app_nil_r ways). apply (f_sound _ _ _ Hf o); [now left|]. now apply r_match.
        * intros w' f' Hr. destruct (f_all _ _ _ Hf _ _ Hr) as (x & u & [<-|Hx] & -> & He).
          -- left. unfold ends in He. cbn [o_been o_pc o_p o_sl o] in He. inv_run He. now rewrite app_nil_r.
          -- right. destruct (StronglySorted_inv (f_order _ _ _ Hf)) as [_ Hall]. rewrite Forall_forall in Hall.
             destruct (Hall x Hx) as [Hb _]. cbn [o_ways o] in Hb. rewrite <- (app_nil_r ways). now apply before_both.
  Qed.
  Lemma kept_first : kept (mkstate 0 [Step start 0] empty []).
  Proof.
    split; [cbn; lia|]. split; [reflexivity|]. split; [|cbn; lia]. exists [GStep start 0 [] []]. split; [reflexivity|]. split; cbn.
    - intros o w f [<-|[]] He. exact He.
    - intros w f Hr. exists (mkopen start 0 empty [] []), w. split; [now left|]. auto.
    - repeat constructor.
    - intros o [<-|[]] v [].
    - intros v [].
  Qed.
  Lemma turns_first n c x : kept c -> turns prog start subject n c = Some x -> first_slots x.
  Proof.
    revert c. induction n as [|n IH]; intros c Hg; [discriminate|]. cbn [turns]. destruct (turn c) as [c'|y] eqn:E.
    - apply IH. now apply (kept_turn c).
    - intros Ey. injection Ey as <-. now apply (kept_result c).
  Qed.
End Runs.

Lemma backtrack_first prog start s n g x : backtrack prog start s n g = Some x -> first_run prog start s g x.
Proof.
  unfold backtrack. destruct (turns _ _ _ _ _) as [y|] eqn:E; [|discriminate]. cbn [option_map]. intros Ex. injection Ex as <-.
  apply (turns_first _ _ _ _ _ _ _ (kept_first _ _ _ _)) in E. destruct y as [f|]; cbn [option_map first_run first_slots] in *; [|exact E].
  destruct E as (q & w & H1 & H2 & H3 & H4). exists q, w, f. auto.
Qed.
(** Only one answer is that of the first run. *)
Lemma before_irrefl w w' : before w w' -> w <> w' /\ ~ before w' w.
Proof.
  intros (u & a & b & -> & ->). split; [intros E; apply app_inv_head in E; discriminate|]. intros (v & c & d & E1 & E2).
  revert v E1 E2. induction u as [|x u IH]; intros [|y v]; cbn; try congruence. intros E1 E2. injection E1 as -> E1. injection E2 as E2. now apply (IH v).
Qed.
Lemma steadily_fun prog s been pc p sl w f : steadily prog s been pc p sl w f -> forall f', steadily prog s been pc p sl w f' -> f = f'.
Proof.
  induction 1 as [been pc p sl H0 H1|been pc p sl w f t n c H0 H1 H2 H3 H4 IH|been pc p sl w f h n H0 H1 H2 H3 IH|been pc p sl w f a b H0 H1 H2 IH|been pc p sl w f a b H0 H1 H2 IH|been pc p sl w f i n H0 H1 H2 IH];
    intros f' H'; inversion H'; subst; try congruence; apply IH; congruence.
Qed.
Lemma first_run_fun prog start s g x y : first_run prog start s g x -> first_run prog start s g y -> x = y.
Proof.
  destruct x as [c|], y as [d|]; cbn [first_run]; [| | |reflexivity].
  - intros (q & w & f & H1 & H2 & -> & H3 & H4) (q' & w' & f' & G1 & G2 & -> & G3 & G4).
    assert (q' = q) as ->.
    { destruct (Nat.lt_trichotomy q q') as [L|[->|L]]; [|reflexivity|].
      - now apply (G4 _ w f) in L.
      - now apply (H4 _ w' f') in L. }
    assert (w' = w) as ->.
    { destruct (H3 _ _ G2) as [?|B]; [assumption|]. destruct (G3 _ _ H2) as [?|B']; [congruence|]. now destruct (before_irrefl _ _ B). }
    now rewrite (steadily_fun _ _ _ _ _ _ _ _ H2 _ G2).
  - intros (q & w & f & H1 & H2 & _) H. now apply H in H2.
  - intros H (q & w & f & H1 & H2 & _). now apply H in H2.
Qed.
