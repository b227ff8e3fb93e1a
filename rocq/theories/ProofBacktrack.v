(** Proofs about the backtracker of Automaton.v: it comes to an end soon, and where the automaton has no loop that
    reads nothing it finds what a search without memory would find. *)
From Verif Require Export Automaton.
Require Import Lia PeanoNat Relations Wellfounded.

Lemma set_slot_length i v l : List.length (set_slot i v l) = List.length l.
Proof. revert i. induction l as [|x l IH]; intros [|i]; cbn; [easy|easy|easy|]. now rewrite IH. Qed.
Lemma nth_set_slot i j v l : nth j (set_slot i v l) None = if Nat.eqb i j && Nat.ltb i (List.length l) then v else nth j l None.
Proof.
  revert i j. induction l as [|x l IH]; intros i j.
  - cbn [set_slot List.length]. rewrite andb_comm. now destruct i, j.
  - destruct i as [|i], j as [|j]; cbn [set_slot nth Nat.eqb andb List.length]; [easy|easy|easy|]. rewrite IH. reflexivity.
Qed.
Lemma set_slot_restore i v l : set_slot i (nth i l None) (set_slot i v l) = l.
Proof. revert i. induction l as [|x l IH]; intros [|i]; cbn; [easy|easy|easy|]. now rewrite IH. Qed.

Section Backtracker.
  Context (prog : list inst) (start : nat) (subject : str).
  Notation turn := (turn prog start subject).
  Notation turns := (turns prog start subject).

  (** * A search without memory: all results in order. *)
  Inductive outcomes : nat -> nat -> slots -> list slots -> Prop :=
  | o_one pc p sl t n c l : nth_error prog pc = Some (IOne t n) -> nth_error subject p = Some c -> t c = true ->
      outcomes n (S p) sl l -> outcomes pc p sl l
  | o_one_no pc p sl t n : nth_error prog pc = Some (IOne t n) ->
      (forall c, nth_error subject p = Some c -> t c = false) -> outcomes pc p sl []
  | o_look pc p sl h n l : nth_error prog pc = Some (ILook h n) -> h (firstn p subject) (skipn p subject) = true ->
      outcomes n p sl l -> outcomes pc p sl l
  | o_look_no pc p sl h n : nth_error prog pc = Some (ILook h n) -> h (firstn p subject) (skipn p subject) = false ->
      outcomes pc p sl []
  | o_split pc p sl a b la lb : nth_error prog pc = Some (ISplit a b) -> outcomes a p sl la -> outcomes b p sl lb ->
      outcomes pc p sl (la ++ lb)
  | o_save pc p sl i n l : nth_error prog pc = Some (ISave i n) -> outcomes n p (set_slot i (Some p) sl) l ->
      outcomes pc p sl l
  | o_match pc p sl : nth_error prog pc = Some IMatch -> outcomes pc p sl [sl]
  | o_fail pc p sl : nth_error prog pc = Some IFail -> outcomes pc p sl [].

  Inductive succ : nat * nat -> nat * nat -> Prop :=
  | s_one pc p t n c : nth_error prog pc = Some (IOne t n) -> nth_error subject p = Some c -> t c = true -> succ (pc, p) (n, S p)
  | s_look pc p h n : nth_error prog pc = Some (ILook h n) -> h (firstn p subject) (skipn p subject) = true -> succ (pc, p) (n, p)
  | s_first pc p a b : nth_error prog pc = Some (ISplit a b) -> succ (pc, p) (a, p)
  | s_second pc p a b : nth_error prog pc = Some (ISplit a b) -> succ (pc, p) (b, p)
  | s_save pc p i n : nth_error prog pc = Some (ISave i n) -> succ (pc, p) (n, p).
  Definition leads := clos_refl_trans_1n _ succ.
  Definition dead (v : nat * nat) : Prop := forall sl, outcomes (fst v) (snd v) sl [].

  Ltac same := repeat match goal with
    | H : ?a = Some ?x, H' : ?a = Some ?y |- _ =>
        rewrite H in H'; first [discriminate H' | injection H' as H'; try subst | clear H'] end.

  Lemma outcomes_fun pc p sl l : outcomes pc p sl l -> forall l', outcomes pc p sl l' -> l = l'.
  Proof.
    induction 1 as [pc p sl t n c l H1 H2 H3 H4 IH|pc p sl t n H1 H2|pc p sl h n l H1 H2 H3 IH|pc p sl h n H1 H2|pc p sl a b la lb H1 H2 IHa H3 IHb|pc p sl i n l H1 H2 IH|pc p sl H1|pc p sl H1];
      intros l' H'; inversion H'; clear H'; subst; same; try congruence; auto.
    - match goal with H : forall c, _ |- _ => rewrite (H c) in H3 end; congruence.
    - match goal with H : _ = true |- _ => rewrite H2 in H end; congruence.
    - f_equal; auto.
  Qed.
  Lemma outcomes_acc pc p sl l : outcomes pc p sl l -> Acc (fun x y => succ y x) (pc, p).
  Proof.
    induction 1 as [pc p sl t n c l H1 H2 H3 H4 IH|pc p sl t n H1 H2|pc p sl h n l H1 H2 H3 IH|pc p sl h n H1 H2|pc p sl a b la lb H1 H2 IHa H3 IHb|pc p sl i n l H1 H2 IH|pc p sl H1|pc p sl H1];
      constructor; intros y Hy; inversion Hy; clear Hy; subst; same; try congruence; auto.
    - match goal with H : nth_error subject p = Some _, H' : _ = true |- _ => rewrite (H2 _ H) in H' end; discriminate.
  Qed.
  Lemma no_cycle x y : Acc (fun x y => succ y x) x -> succ x y -> leads y x -> False.
  Proof.
    intros Ha. revert y. induction Ha as [x Ha IH]. intros y Hxy Hyx. inversion Hyx as [|z w Hyz Hzx]; subst.
    - exact (IH x Hxy x Hxy Hyx).
    - apply (IH y Hxy z Hyz). clear -Hzx Hxy. induction Hzx as [x|z w x Hzw _ IH]; [econstructor; [exact Hxy|constructor]|].
      econstructor; [exact Hzw|]. now apply IH.
  Qed.
  (** Whether there is a result does not depend on the slots. *)
  Lemma outcomes_any pc p sl l : outcomes pc p sl l -> forall sl', exists l', outcomes pc p sl' l' /\ List.length l' = List.length l.
  Proof.
    induction 1 as [pc p sl t n c l H1 H2 H3 H4 IH|pc p sl t n H1 H2|pc p sl h n l H1 H2 H3 IH|pc p sl h n H1 H2|pc p sl a b la lb H1 H2 IHa H3 IHb|pc p sl i n l H1 H2 IH|pc p sl H1|pc p sl H1];
      intros sl'.
    - destruct (IH sl') as (l' & Hl & He). exists l'. split; [eapply o_one; eassumption|exact He].
    - exists []. split; [eapply o_one_no; eassumption|easy].
    - destruct (IH sl') as (l' & Hl & He). exists l'. split; [eapply o_look; eassumption|exact He].
    - exists []. split; [eapply o_look_no; eassumption|easy].
    - destruct (IHa sl') as (l1 & Hl1 & He1). destruct (IHb sl') as (l2 & Hl2 & He2). exists (l1 ++ l2).
      split; [eapply o_split; eassumption|]. rewrite !app_length. lia.
    - destruct (IH (set_slot i (Some p) sl')) as (l' & Hl & He). exists l'. split; [eapply o_save; eassumption|exact He].
    - exists [sl']. split; [now apply o_match|easy].
    - exists []. split; [now apply o_fail|easy].
  Qed.
  Lemma outcomes_dead pc p sl : outcomes pc p sl [] -> dead (pc, p).
  Proof. intros H sl'. destruct (outcomes_any _ _ _ _ H sl') as ([|x l] & Hl & He); [exact Hl|discriminate He]. Qed.

  (** * Runs of the backtracker *)
  Inductive star : search_state -> search_state -> Prop :=
  | star_refl c : star c c
  | star_turn c c' c'' : turn c = inl c' -> star c' c'' -> star c c''.
  Lemma star_trans a b c : star a b -> star b c -> star a c.
  Proof. induction 1; [easy|]. intros Hc. econstructor; eauto. Qed.
  Lemma star_turns c c' x : star c c' -> turn c' = inr x -> exists n, turns n c = Some x.
  Proof.
    induction 1 as [c|c c' c'' H _ IH]; intros Hx; [exists 1%nat; cbn; now rewrite Hx|].
    destruct (IH Hx) as [n Hn]. exists (S n). cbn. now rewrite H.
  Qed.
  Lemma turns_fun n c x : turns n c = Some x -> forall m y, turns m c = Some y -> x = y.
  Proof.
    revert c. induction n as [|n IH]; intros c; [discriminate|]. cbn. intros Hx [|m] y; [discriminate|]. cbn.
    destruct (turn c) as [c'|z]; [exact (IH _ Hx m y)|congruence].
  Qed.

  Lemma visited_iff pc p v : visited pc p v = true <-> In (pc, p) v.
  Proof.
    unfold visited. rewrite existsb_exists. split.
    - intros ([a b] & Hi & He). apply andb_prop in He as [H1 H2]. apply Nat.eqb_eq in H1, H2. cbn in *. now subst.
    - intros Hi. exists (pc, p). split; [exact Hi|]. cbn. now rewrite !Nat.eqb_refl.
  Qed.

  Lemma explore pc p sl l : outcomes pc p sl l -> forall from stack vis,
    (forall v, In v vis -> leads (pc, p) v -> dead v) ->
    match l with
    | [] => exists vis', star (mkstate from (Step pc p :: stack) sl vis) (mkstate from stack sl vis') /\
              forall v, In v vis' -> In v vis \/ dead v
    | x :: _ => exists c, star (mkstate from (Step pc p :: stack) sl vis) c /\ turn c = inr (Some x)
    end.
  Proof.
    induction 1 as [pc p sl t n c l H1 H2 H3 H4 IH|pc p sl t n H1 H2|pc p sl h n l H1 H2 H3 IH|pc p sl h n H1 H2|pc p sl a b la lb H1 H2 IHa H3 IHb|pc p sl i n l H1 H2 IH|pc p sl H1|pc p sl H1];
      intros from stack vis Hv;
      (destruct (visited pc p vis) eqn:Hvis; [
        assert (Hd : dead (pc, p)) by (apply Hv; [now apply visited_iff|constructor])|]).
    - pose proof (outcomes_fun _ _ _ _ (Hd sl) l (o_one _ _ _ _ _ _ _ H1 H2 H3 H4)) as <-.
      exists vis. split; [|auto]. eapply star_turn; [cbn [turn]; unfold Automaton.turn; now rewrite Hvis|constructor].
    - assert (Hs : succ (pc, p) (n, S p)) by (eapply s_one; eassumption).
      assert (Ha := outcomes_acc _ _ _ _ (o_one _ _ _ _ _ _ _ H1 H2 H3 H4)).
      specialize (IH from stack ((pc, p) :: vis)).
      assert (Ht : turn (mkstate from (Step pc p :: stack) sl vis) = inl (mkstate from (Step n (S p) :: stack) sl ((pc, p) :: vis)))
        by (unfold Automaton.turn; now rewrite Hvis, H1, H2, H3).
      destruct l as [|x l].
      + destruct IH as (vis' & Hr & Hn); [|exists vis'; split; [econstructor; eassumption|]].
        * intros v [<-|Hi] Hl; [exfalso; eapply no_cycle; eassumption|]. apply Hv; [exact Hi|]. econstructor; eassumption.
        * intros v Hi. destruct (Hn v Hi) as [[<-|Hi']|Hd]; [right|now left|now right]. apply (outcomes_dead _ _ sl); eapply o_one; eassumption.
      + destruct IH as (c' & Hr & Hn); [|exists c'; split; [econstructor; eassumption|exact Hn]].
        intros v [<-|Hi] Hl; [exfalso; eapply no_cycle; eassumption|]. apply Hv; [exact Hi|]. econstructor; eassumption.
    - exists vis. split; [|auto]. eapply star_turn; [unfold Automaton.turn; now rewrite Hvis|constructor].
    - exists ((pc, p) :: vis). split.
      + eapply star_turn; [|constructor]. unfold Automaton.turn. rewrite Hvis, H1.
        destruct (nth_error subject p) as [c|] eqn:Hc; [now rewrite (H2 c eq_refl)|reflexivity].
      + intros v [<-|Hi]; [right|now left]. apply (outcomes_dead _ _ sl); eapply o_one_no; eassumption.
    - pose proof (outcomes_fun _ _ _ _ (Hd sl) l (o_look _ _ _ _ _ _ H1 H2 H3)) as <-.
      exists vis. split; [|auto]. eapply star_turn; [unfold Automaton.turn; now rewrite Hvis|constructor].
    - assert (Hs : succ (pc, p) (n, p)) by (eapply s_look; eassumption).
      assert (Ha := outcomes_acc _ _ _ _ (o_look _ _ _ _ _ _ H1 H2 H3)).
      specialize (IH from stack ((pc, p) :: vis)).
      assert (Ht : turn (mkstate from (Step pc p :: stack) sl vis) = inl (mkstate from (Step n p :: stack) sl ((pc, p) :: vis)))
        by (unfold Automaton.turn; now rewrite Hvis, H1, H2).
      destruct l as [|x l].
      + destruct IH as (vis' & Hr & Hn); [|exists vis'; split; [econstructor; eassumption|]].
        * intros v [<-|Hi] Hl; [exfalso; eapply no_cycle; eassumption|]. apply Hv; [exact Hi|]. econstructor; eassumption.
        * intros v Hi. destruct (Hn v Hi) as [[<-|Hi']|Hd]; [right|now left|now right]. apply (outcomes_dead _ _ sl); eapply o_look; eassumption.
      + destruct IH as (c' & Hr & Hn); [|exists c'; split; [econstructor; eassumption|exact Hn]].
        intros v [<-|Hi] Hl; [exfalso; eapply no_cycle; eassumption|]. apply Hv; [exact Hi|]. econstructor; eassumption.
    - exists vis. split; [|auto]. eapply star_turn; [unfold Automaton.turn; now rewrite Hvis|constructor].
    - exists ((pc, p) :: vis). split.
      + eapply star_turn; [|constructor]. unfold Automaton.turn. now rewrite Hvis, H1, H2.
      + intros v [<-|Hi]; [right|now left]. apply (outcomes_dead _ _ sl); eapply o_look_no; eassumption.
    - pose proof (outcomes_fun _ _ _ _ (Hd sl) (la ++ lb) (o_split _ _ _ _ _ _ _ H1 H2 H3)) as <-.
      exists vis. split; [|auto]. eapply star_turn; [unfold Automaton.turn; now rewrite Hvis|constructor].
    - pose proof (o_split _ _ _ _ _ _ _ H1 H2 H3) as Ho.
      assert (Ha := outcomes_acc _ _ _ _ Ho).
      assert (Hsa : succ (pc, p) (a, p)) by (eapply s_first; eassumption).
      assert (Hsb : succ (pc, p) (b, p)) by (eapply s_second; eassumption).
      specialize (IHa from (Step b p :: stack) ((pc, p) :: vis)).
      assert (Ht : turn (mkstate from (Step pc p :: stack) sl vis) = inl (mkstate from (Step a p :: Step b p :: stack) sl ((pc, p) :: vis)))
        by (unfold Automaton.turn; now rewrite Hvis, H1).
      assert (Hva : forall v, In v ((pc, p) :: vis) -> leads (a, p) v -> dead v).
      { intros v [<-|Hi] Hl; [exfalso; eapply no_cycle; [exact Ha|exact Hsa|exact Hl]|]. apply Hv; [exact Hi|]. exact (Relation_Operators.rt1n_trans _ _ _ _ _ Hsa Hl). }
      destruct la as [|x la]; cbn [app].
      + destruct (IHa Hva) as (vis' & Hr & Hn).
        assert (Hvb : forall v, In v vis' -> leads (b, p) v -> dead v).
        { intros v Hi Hl. destruct (Hn v Hi) as [[<-|Hi']|Hd]; [|apply Hv; [exact Hi'|exact (Relation_Operators.rt1n_trans _ _ _ _ _ Hsb Hl)]|exact Hd].
          exfalso; eapply no_cycle; [exact Ha|exact Hsb|exact Hl]. }
        specialize (IHb from stack vis' Hvb). destruct lb as [|x lb].
        * destruct IHb as (vis'' & Hr' & Hn'). exists vis''. split; [econstructor; [exact Ht|]; eapply star_trans; eassumption|].
          intros v Hi. destruct (Hn' v Hi) as [Hi'|Hd]; [|now right]. destruct (Hn v Hi') as [[<-|Hi'']|Hd]; [|now left|now right].
          right. eapply outcomes_dead. exact Ho.
        * destruct IHb as (c' & Hr' & Hn'). exists c'. split; [econstructor; [exact Ht|]; eapply star_trans; eassumption|exact Hn'].
      + destruct (IHa Hva) as (c' & Hr & Hn). exists c'. split; [econstructor; eassumption|exact Hn].
    - pose proof (outcomes_fun _ _ _ _ (Hd sl) l (o_save _ _ _ _ _ _ H1 H2)) as <-.
      exists vis. split; [|auto]. eapply star_turn; [unfold Automaton.turn; now rewrite Hvis|constructor].
    - assert (Hs : succ (pc, p) (n, p)) by (eapply s_save; eassumption).
      assert (Ha := outcomes_acc _ _ _ _ (o_save _ _ _ _ _ _ H1 H2)).
      specialize (IH from (Restore i (nth i sl None) :: stack) ((pc, p) :: vis)).
      assert (Ht : turn (mkstate from (Step pc p :: stack) sl vis) =
        inl (mkstate from (Step n p :: Restore i (nth i sl None) :: stack) (set_slot i (Some p) sl) ((pc, p) :: vis)))
        by (unfold Automaton.turn; now rewrite Hvis, H1).
      destruct l as [|x l].
      + destruct IH as (vis' & Hr & Hn); [|exists vis'; split].
        * intros v [<-|Hi] Hl; [exfalso; eapply no_cycle; eassumption|]. apply Hv; [exact Hi|]. econstructor; eassumption.
        * econstructor; [exact Ht|]. eapply star_trans; [exact Hr|]. eapply star_turn; [unfold Automaton.turn; reflexivity|].
          rewrite set_slot_restore. constructor.
        * intros v Hi. destruct (Hn v Hi) as [[<-|Hi']|Hd]; [right|now left|now right]. apply (outcomes_dead _ _ sl); eapply o_save; eassumption.
      + destruct IH as (c' & Hr & Hn); [|exists c'; split; [econstructor; eassumption|exact Hn]].
        intros v [<-|Hi] Hl; [exfalso; eapply no_cycle; eassumption|]. apply Hv; [exact Hi|]. econstructor; eassumption.
    - pose proof (outcomes_fun _ _ _ _ (Hd sl) [sl] (o_match _ _ _ H1)) as He. discriminate He.
    - eexists. split; [constructor|]. unfold Automaton.turn. now rewrite Hvis, H1.
    - exists vis. split; [|auto]. eapply star_turn; [unfold Automaton.turn; now rewrite Hvis|constructor].
    - exists ((pc, p) :: vis). split.
      + eapply star_turn; [|constructor]. unfold Automaton.turn. now rewrite Hvis, H1.
      + intros v [<-|Hi]; [right|now left]. apply (outcomes_dead _ _ sl); eapply o_fail; eassumption.
  Qed.

  (** * It comes to an end soon. *)
  Notation cells := (List.length prog * S (List.length subject))%nat.
  Definition inside (v : nat * nat) : Prop := (fst v < List.length prog)%nat /\ (snd v <= List.length subject)%nat.
  Definition fine (c : search_state) : Prop :=
    (bt_at c <= List.length subject)%nat /\ NoDup (bt_visited c) /\ Forall inside (bt_visited c) /\
    Forall (fun f => match f with Step _ p => (p <= List.length subject)%nat | Restore _ _ => True end) (bt_stack c).
  Definition left_over (c : search_state) : nat :=
    (2 * (cells - List.length (bt_visited c)) + List.length (bt_stack c) + 2 * (List.length subject - bt_at c))%nat.
  Lemma room l : NoDup l -> Forall inside l -> (List.length l <= cells)%nat.
  Proof.
    intros Hd Hi. transitivity (List.length (list_prod (seq 0 (List.length prog)) (seq 0 (S (List.length subject))))).
    - apply NoDup_incl_length; [exact Hd|]. intros [a b] Hab. rewrite Forall_forall in Hi. destruct (Hi _ Hab) as [H1 H2]. cbn in H1, H2.
      apply in_prod; apply in_seq; lia.
    - rewrite prod_length, !seq_length. lia.
  Qed.
  Lemma turn_fine c c' : fine c -> turn c = inl c' -> fine c' /\ (left_over c' < left_over c)%nat.
  Proof.
    destruct c as [from stack sl vis]. intros (Hf & Hd & Hi & Hs). cbn [bt_at bt_stack bt_visited] in *. unfold Automaton.turn.
    destruct stack as [|[pc p|i old] stack].
    - destruct (Nat.ltb_spec from (List.length subject)) as [Hl|]; [|discriminate]. intros E. injection E as <-.
      split; [repeat split; cbn; auto; try lia; repeat constructor; lia|]. unfold left_over. cbn [bt_at bt_stack bt_visited List.length]. lia.
    - apply Forall_inv in Hs as Hp. apply Forall_inv_tail in Hs.
      destruct (visited pc p vis) eqn:Hvis.
      + intros E. injection E as <-. split; [repeat split; cbn; auto; lia|]. unfold left_over. cbn [bt_at bt_stack bt_visited List.length]. lia.
      + assert (Hnew : forall x, nth_error prog pc = Some x -> NoDup ((pc, p) :: vis) /\ Forall inside ((pc, p) :: vis) /\ (S (List.length vis) <= cells)%nat).
        { intros x Hx. assert (H1 : NoDup ((pc, p) :: vis)).
          { constructor; [|exact Hd]. rewrite <- visited_iff. congruence. }
          assert (H2 : Forall inside ((pc, p) :: vis)).
          { constructor; [|exact Hi]. split; cbn; [|exact Hp]. apply nth_error_Some. congruence. }
          split; [exact H1|]. split; [exact H2|]. exact (room _ H1 H2). }
        assert (Hgo : forall x frames sl', nth_error prog pc = Some x -> (List.length frames <= 2)%nat ->
          Forall (fun f => match f with Step _ p => (p <= List.length subject)%nat | Restore _ _ => True end) frames ->
          inl (mkstate from (frames ++ stack) sl' ((pc, p) :: vis)) = inl (B := option slots) c' ->
          fine c' /\ (left_over c' < left_over (mkstate from (Step pc p :: stack) sl vis))%nat).
        { intros x frames sl' Hx Hlen Hfr E. injection E as <-. destruct (Hnew x Hx) as (H1 & H2 & H3). split.
          - repeat split; cbn [bt_at bt_stack bt_visited]; auto. apply Forall_app. now split.
          - unfold left_over. cbn [bt_at bt_stack bt_visited List.length]. rewrite app_length. lia. }
        destruct (nth_error prog pc) as [[t n|h n|a b|i n| |]|] eqn:Hpc; cbv zeta beta.
        * destruct (nth_error subject p) as [c|] eqn:Hc.
          -- assert (p < List.length subject)%nat by (apply nth_error_Some; congruence).
             destruct (t c); intros E; eapply Hgo; [reflexivity| | |exact E|reflexivity| | |exact E]; cbn; try lia; repeat constructor; lia.
          -- intros E; eapply Hgo; [reflexivity| | |exact E]; cbn; [lia|constructor].
        * destruct (h _ _); intros E; eapply Hgo; [reflexivity| | |exact E|reflexivity| | |exact E]; cbn; try lia; repeat constructor; lia.
        * intros E; eapply Hgo; [reflexivity| | |exact E]; cbn; [lia|repeat constructor; lia].
        * intros E; eapply Hgo; [reflexivity| | |exact E]; cbn; [lia|repeat constructor; lia].
        * intros E; eapply Hgo; [reflexivity| | |exact E]; cbn; [lia|constructor].
        * discriminate.
        * intros E. injection E as <-. split; [repeat split; cbn; auto; lia|]. unfold left_over. cbn [bt_at bt_stack bt_visited List.length]. lia.
    - apply Forall_inv_tail in Hs. intros E. injection E as <-. split; [repeat split; cbn; auto; lia|].
      unfold left_over. cbn [bt_at bt_stack bt_visited List.length]. lia.
  Qed.
  Lemma turns_end n c : fine c -> (left_over c < n)%nat -> exists x, turns n c = Some x.
  Proof.
    revert c. induction n as [|n IH]; intros c Hc Hn; [lia|]. cbn. destruct (turn c) as [c'|x] eqn:E; [|eauto].
    destruct (turn_fine _ _ Hc E) as [Hf Hl]. apply IH; [exact Hf|lia].
  Qed.
  Lemma first_fine sl : fine (mkstate 0 [Step start 0] sl []).
  Proof. repeat split; cbn; try lia; try constructor; try lia; constructor. Qed.
  Lemma first_left sl : (left_over (mkstate 0 [Step start 0] sl []) < 2 * (S (List.length prog) * S (List.length subject)))%nat.
  Proof. unfold left_over. cbn [bt_at bt_stack bt_visited List.length]. lia. Qed.
End Backtracker.
