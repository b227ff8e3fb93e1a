(** Proofs about paths through the automaton: for any regex, also one with loops that read nothing, what the
    backtracker finds is a match, the leftmost, and it finds one if there is one. *)
From Verif Require Export ProofAutomaton2 ProofMeaning.
Require Import Lia PeanoNat.

Section Paths.
  Context (prog : list inst) (subject : str).
  (** The automaton can go from a state at a place to a match, in so many steps; the slots at the end. *)
  Inductive path : nat -> nat -> nat -> slots -> slots -> Prop :=
  | p_match pc p sl : nth_error prog pc = Some IMatch -> path 0 pc p sl sl
  | p_one m pc p sl f t n c : nth_error prog pc = Some (IOne t n) -> nth_error subject p = Some c -> t c = true ->
      path m n (S p) sl f -> path (S m) pc p sl f
  | p_look m pc p sl f h n : nth_error prog pc = Some (ILook h n) -> h (firstn p subject) (skipn p subject) = true ->
      path m n p sl f -> path (S m) pc p sl f
  | p_first m pc p sl f a b : nth_error prog pc = Some (ISplit a b) -> path m a p sl f -> path (S m) pc p sl f
  | p_second m pc p sl f a b : nth_error prog pc = Some (ISplit a b) -> path m b p sl f -> path (S m) pc p sl f
  | p_save m pc p sl f i n : nth_error prog pc = Some (ISave i n) -> path m n p (set_slot i (Some p) sl) f -> path (S m) pc p sl f.

  (** * What the backtracker finds is the end of a path; it finds one if there is one. *)
  Section Machine.
    Context (start : nat) (empty : slots).
    Notation turn := (turn prog start subject).
    Notation succ := (succ prog subject).
    Fixpoint pending (stack : list task) (sl : slots) : list (nat * nat * slots) :=
      match stack with
      | [] => []
      | Step pc p :: stack => (pc, p, sl) :: pending stack sl
      | Restore i old :: stack => pending stack (set_slot i old sl)
      end.
    Fixpoint settle (stack : list task) (sl : slots) : slots :=
      match stack with
      | [] => sl
      | Step _ _ :: stack => settle stack sl
      | Restore i old :: stack => settle stack (set_slot i old sl)
      end.
    Definition waits (v : nat * nat) (stack : list task) : Prop := In (Step (fst v) (snd v)) stack.
    Definition hopeless (v : nat * nat) : Prop := forall m sl f, ~ path m (fst v) (snd v) sl f.
    Definition handled (c : search_state) (v : nat * nat) : Prop :=
      In v (bt_visited c) \/ waits v (bt_stack c) \/ nth_error prog (fst v) = None.
    Definition good (c : search_state) : Prop :=
      (bt_at c <= List.length subject)%nat /\
      settle (bt_stack c) (bt_slots c) = empty /\
      (forall pc p sl, In (pc, p, sl) (pending (bt_stack c) (bt_slots c)) -> forall m f, path m pc p sl f -> exists m', path m' start (bt_at c) empty f) /\
      (forall v, In v (bt_visited c) -> nth_error prog (fst v) <> Some IMatch /\ forall y, succ v y -> handled c y) /\
      handled c (start, bt_at c) /\
      forall q, (q < bt_at c)%nat -> hopeless (start, q).

    (** Nothing left to do: where the search has been, there is no hope. *)
    Lemma good_end from sl vis : good (mkstate from [] sl vis) -> forall q, (q <= from)%nat -> hopeless (start, q).
    Proof.
      intros (_ & _ & _ & Hc & Hs & Hq) q Hle. destruct (Nat.eq_dec q from) as [->|]; [|apply Hq; cbn; lia].
      cbn [bt_at] in Hs. unfold handled in Hc, Hs. cbn [bt_visited bt_stack] in Hc, Hs.
      assert (Hall : forall m pc p sl f, path m pc p sl f -> In (pc, p) vis \/ nth_error prog pc = None -> False).
      { induction 1 as [pc p s0 H1|m pc p s0 f t n c H1 H2 H3 H4 IH|m pc p s0 f h n H1 H2 H3 IH|m pc p s0 f a b H1 H2 IH|m pc p s0 f a b H1 H2 IH|m pc p s0 f i n H1 H2 IH];
          (intros [Hi|Hi]; [|congruence]); destruct (Hc _ Hi) as [Hm Hy]; cbn [fst snd] in *; [congruence| | | | |]; apply IH.
        - destruct (Hy (n, S p)) as [?|[[]|?]]; [eapply s_one; eassumption|now left|now right].
        - destruct (Hy (n, p)) as [?|[[]|?]]; [eapply s_look; eassumption|now left|now right].
        - destruct (Hy (a, p)) as [?|[[]|?]]; [eapply s_first; eassumption|now left|now right].
        - destruct (Hy (b, p)) as [?|[[]|?]]; [eapply s_second; eassumption|now left|now right].
        - destruct (Hy (n, p)) as [?|[[]|?]]; [eapply s_save; eassumption|now left|now right]. }
      intros m sl' f Hp. apply (Hall _ _ _ _ _ Hp). destruct Hs as [?|[[]|?]]; [now left|now right].
    Qed.

    Lemma good_turn c c' : good c -> turn c = inl c' -> good c'.
    Proof.
      intros Hg. pose proof Hg as (Ha & Hs & Hp & Hc & Hh & Hq). destruct c as [from stack sl vis]. unfold Automaton.turn.
      destruct stack as [|[pc p|i old] stack].
      - destruct (Nat.ltb_spec from (List.length subject)) as [Hl|]; [|discriminate]. intros E. injection E as <-.
        repeat split; cbn [bt_at bt_stack bt_slots bt_visited settle pending] in *.
        + lia.
        + exact Hs.
        + intros pc p sl' [E|[]] m f Hpath. injection E as <- <- <-. rewrite Hs in Hpath. eauto.
        + now apply Hc.
        + intros y Hy. destruct (proj2 (Hc _ H) y Hy) as [?|[[]|?]]; [now left|right; now right].
        + right. left. now left.
        + intros q Hlt. apply (good_end _ _ _ Hg). lia.
      - cbn [bt_at bt_stack bt_slots bt_visited settle pending] in *.
        assert (Hskip : (In (pc, p) vis \/ nth_error prog pc = None) -> good (mkstate from stack sl vis)).
        { intros Hi. assert (Hm : forall v, handled (mkstate from (Step pc p :: stack) sl vis) v -> handled (mkstate from stack sl vis) v).
          { intros v [?|[[E|?]|?]]; [now left| |right; now left|right; now right]. destruct v as [a b]. cbn in E. injection E as -> ->.
            destruct Hi; [now left|right; now right]. }
          repeat split; cbn [bt_at bt_stack bt_slots bt_visited] in *; auto.
          - intros a b sl' Hin. apply Hp. now right.
          - now apply Hc.
          - intros y Hy. apply Hm. now apply (proj2 (Hc _ H)). }
        destruct (visited pc p vis) eqn:Hvis; [intros E; injection E as <-; apply Hskip; left; now apply visited_iff|].
        assert (Hgo : forall frames sl', nth_error prog pc <> Some IMatch ->
          settle (frames ++ stack) sl' = empty ->
          (forall x, In x (pending (frames ++ stack) sl') -> In x (pending stack sl) \/
             forall m f, path m (fst (fst x)) (snd (fst x)) (snd x) f -> path (S m) pc p sl f) ->
          (forall y, succ (pc, p) y -> waits y frames) ->
          inl (mkstate from (frames ++ stack) sl' ((pc, p) :: vis)) = inl (B := option slots) c' -> good c').
        { intros frames sl' H1 H2 H3 H4 E. injection E as <-.
          assert (Hm : forall v, handled (mkstate from (Step pc p :: stack) sl vis) v -> handled (mkstate from (frames ++ stack) sl' ((pc, p) :: vis)) v).
          { intros v [?|[[E|?]|?]]; [left; now right| |right; left; apply in_or_app; now right|right; now right].
            left. left. destruct v as [a b]. cbn in E. now injection E as -> ->. }
          repeat split; cbn [bt_at bt_stack bt_slots bt_visited] in *; auto.
          - intros a b sl'' Hin m f Hpath. destruct (H3 _ Hin) as [Hold|Hnew].
            + apply (Hp a b sl'' (or_intror Hold) m f Hpath).
            + apply (Hp pc p sl (or_introl eq_refl) (S m) f). now apply Hnew.
          - destruct H as [<-|H]; [exact H1|now apply Hc].
          - intros y Hy. destruct H as [<-|H]; [|apply Hm; now apply (proj2 (Hc _ H))].
            right. left. apply in_or_app. left. now apply H4. }
        destruct (nth_error prog pc) as [[t n|h n|a b|i n| |]|] eqn:Hpc; cbv zeta beta.
        * destruct (nth_error subject p) as [c|] eqn:Hch.
          -- destruct (t c) eqn:Ht; intros E; (eapply Hgo; [discriminate| | | |exact E]); [exact Hs| | |exact Hs| |].
             ++ intros x [<-|Hx]; [right|now left]. cbn [fst snd]. intros m f Hm. eapply p_one; eassumption.
             ++ intros y Hy. inversion Hy; subst; try congruence. left. cbn. congruence.
             ++ intros x Hx. now left.
             ++ intros y Hy. inversion Hy; subst; congruence.
          -- intros E; (eapply Hgo; [discriminate| | | |exact E]); [exact Hs|intros x Hx; now left|]. intros y Hy. inversion Hy; subst; congruence.
        * destruct (h _ _) eqn:Ht; intros E; (eapply Hgo; [discriminate| | | |exact E]); [exact Hs| | |exact Hs| |].
          -- intros x [<-|Hx]; [right|now left]. cbn [fst snd]. intros m f Hm. eapply p_look; eassumption.
          -- intros y Hy. inversion Hy; subst; try congruence. left. cbn. congruence.
          -- intros x Hx. now left.
          -- intros y Hy. inversion Hy; subst; congruence.
        * intros E; (eapply Hgo; [discriminate| | | |exact E]); [exact Hs| |].
          -- intros x [<-|[<-|Hx]]; [right|right|now left]; cbn [fst snd]; intros m f Hm; [eapply p_first|eapply p_second]; eassumption.
          -- intros y Hy. inversion Hy; subst; try congruence; [left|right; left]; cbn; congruence.
        * intros E; (eapply Hgo; [discriminate| | | |exact E]).
          -- cbn [app settle]. now rewrite set_slot_restore.
          -- cbn [app pending]. rewrite set_slot_restore. intros x [<-|Hx]; [right|now left]. cbn [fst snd]. intros m f Hm. eapply p_save; eassumption.
          -- intros y Hy. inversion Hy; subst; try congruence. left. cbn. congruence.
        * intros E; (eapply Hgo; [discriminate| | | |exact E]); [exact Hs|intros x Hx; now left|]. intros y Hy. inversion Hy; subst; congruence.
        * discriminate.
        * intros E. injection E as <-. apply Hskip. now right.
      - intros E. injection E as <-.
        assert (Hm : forall v, handled (mkstate from (Restore i old :: stack) sl vis) v -> handled (mkstate from stack (set_slot i old sl) vis) v).
        { intros v [?|[[E|?]|?]]; [now left|discriminate E|right; now left|right; now right]. }
        repeat split; cbn [bt_at bt_stack bt_slots bt_visited] in *; auto; [now apply Hc|].
        intros y Hy. apply Hm. now apply (proj2 (Hc _ H)).
    Qed.
    Lemma good_result c x : good c -> turn c = inr x ->
      match x with
      | Some f => exists q m, (q <= List.length subject)%nat /\ path m start q empty f /\ forall q', (q' < q)%nat -> hopeless (start, q')
      | None => forall q, (q <= List.length subject)%nat -> hopeless (start, q)
      end.
    Proof.
      intros Hg. pose proof Hg as (Ha & Hs & Hp & Hc & Hh & Hq). destruct c as [from stack sl vis]. unfold Automaton.turn.
      destruct stack as [|[pc p|i old] stack]; [|cbn [bt_at bt_stack bt_slots bt_visited pending] in *|discriminate].
      - destruct (Nat.ltb_spec from (List.length subject)) as [|Hl]; [discriminate|]. intros E. injection E as <-.
        intros q Hle. apply (good_end _ _ _ Hg). lia.
      - destruct (visited pc p vis); [discriminate|].
        destruct (nth_error prog pc) as [[t n|h n|a b|i n| |]|] eqn:Hpc; cbv zeta beta; try discriminate.
        + destruct (nth_error subject p) as [c|]; [destruct (t c)|]; discriminate.
        + destruct (h _ _); discriminate.
        + intros E. injection E as <-. destruct (Hp pc p sl (or_introl eq_refl) 0%nat sl) as [m Hm]; [now apply p_match|]. eauto.
    Qed.
    Lemma good_first : good (mkstate 0 [Step start 0] empty []).
    Proof.
      repeat split; cbn; try lia; try easy.
      - intros pc p sl [E|[]] m f Hpath. injection E as <- <- <-. eauto.
      - right. left. now left.
    Qed.
    Lemma turns_result n c x : good c -> turns prog start subject n c = Some x ->
      match x with
      | Some f => exists q m, (q <= List.length subject)%nat /\ path m start q empty f /\ forall q', (q' < q)%nat -> hopeless (start, q')
      | None => forall q, (q <= List.length subject)%nat -> hopeless (start, q)
      end.
    Proof.
      revert c. induction n as [|n IH]; intros c Hg; [discriminate|]. cbn [turns]. destruct (turn c) as [c'|y] eqn:E.
      - apply IH. now apply (good_turn c).
      - intros Ey. injection Ey as <-. now apply (good_result c).
    Qed.
  End Machine.
End Paths.
