(** Proofs about paths through the code of a regex: they are its matches. *)
From Verif Require Export ProofPaths.
Require Import Lia PeanoNat Wf_nat.

Section Code.
  Context (digit space word : char -> bool) (prog : list inst) (subject : str) (L : nat).
  Notation path := (path prog subject).
  Notation rm := (rm digit space word).
  Notation rms := (rms digit space word).
  Notation placed := (placed prog).
  Notation updates := (updates subject).

  (** A match of a part of the regex: before, matched, after, groups. *)
  Definition meaning := str -> str -> str -> list (option str) -> Prop.
  (** Every path from [e] goes through [k], and has then matched [R]. *)
  Definition passes (R : meaning) (e k g n : nat) : Prop := forall m pre s sl f,
    subject = pre ++ s -> List.length sl = L -> path m e (List.length pre) sl f ->
    exists mid rest caps sl' m', s = mid ++ rest /\ R pre mid rest caps /\ List.length caps = n /\ updates g caps sl sl' /\
      List.length sl' = L /\ (m' <= m)%nat /\ path m' k (List.length pre + List.length mid)%nat sl' f.
  (** Whatever [R] matches, there is a path for it. *)
  Definition reaches (R : meaning) (e k : nat) : Prop := forall pre mid rest caps,
    subject = pre ++ mid ++ rest -> R pre mid rest caps -> forall sl, exists sl', forall m f,
      path m k (List.length pre + List.length mid)%nat sl' f -> exists m', path m' e (List.length pre) sl f.
  Definition right_code (body : compiler) (R : meaning) (g n : nat) : Prop :=
    forall k a, placed a (fst (body k a)) -> passes R (snd (body k a)) k g n /\ reaches R (snd (body k a)) k.

  Lemma whole pre mid rest : subject = pre ++ mid ++ rest -> subject = (pre ++ mid) ++ rest.
  Proof. now rewrite app_assoc. Qed.
  Lemma passes_weaken (R S : meaning) e k g n : (forall p m q c, R p m q c -> S p m q c) -> passes R e k g n -> passes S e k g n.
  Proof.
    intros H Hp m pre s sl f H1 H2 H3. destruct (Hp m pre s sl f H1 H2 H3) as (mid & rest & caps & sl' & m' & G1 & G2 & G).
    exists mid, rest, caps, sl', m'. split; [exact G1|]. split; [now apply H|exact G].
  Qed.
  Lemma reaches_weaken (R S : meaning) e k : (forall p m q c, S p m q c -> exists c', R p m q c') -> reaches R e k -> reaches S e k.
  Proof. intros H Hr pre mid rest caps Hs HS. destruct (H _ _ _ _ HS) as [c' Hc]. exact (Hr pre mid rest c' Hs Hc). Qed.
  Lemma passes_split R e a b k g n : nth_error prog e = Some (ISplit a b) -> passes R a k g n -> passes R b k g n -> passes R e k g n.
  Proof.
    intros He Ha Hb m pre s sl f H1 H2 H3. inversion H3; subst; try congruence;
      match goal with H : nth_error prog e = Some (ISplit _ _) |- _ => rewrite H in He; injection He as -> -> end.
    - edestruct Ha as (mid & rest & caps & sl' & m' & G1 & G2 & G3 & G4 & G5 & G6 & G7); [| |eassumption|]; try eassumption; try reflexivity.
      exists mid, rest, caps, sl', m'. repeat split; auto.
    - edestruct Hb as (mid & rest & caps & sl' & m' & G1 & G2 & G3 & G4 & G5 & G6 & G7); [| |eassumption|]; try eassumption; try reflexivity.
      exists mid, rest, caps, sl', m'. repeat split; auto.
  Qed.
  Lemma reaches_first R e a b k : nth_error prog e = Some (ISplit a b) -> reaches R a k -> reaches R e k.
  Proof.
    intros He Ha pre mid rest caps Hs HR sl. destruct (Ha pre mid rest caps Hs HR sl) as [sl' H]. exists sl'.
    intros m f Hp. destruct (H m f Hp) as [m' Hm]. exists (S m'). eapply p_first; eassumption.
  Qed.
  Lemma reaches_second R e a b k : nth_error prog e = Some (ISplit a b) -> reaches R b k -> reaches R e k.
  Proof.
    intros He Ha pre mid rest caps Hs HR sl. destruct (Ha pre mid rest caps Hs HR sl) as [sl' H]. exists sl'.
    intros m f Hp. destruct (H m f Hp) as [m' Hm]. exists (S m'). eapply p_second; eassumption.
  Qed.
  Lemma passes_prefer R greedy e a b k g n : nth_error prog e = Some (prefer greedy a b) -> passes R a k g n -> passes R b k g n -> passes R e k g n.
  Proof. destruct greedy; intros He Ha Hb; eapply passes_split; eassumption. Qed.
  Lemma reaches_again R greedy e a b k : nth_error prog e = Some (prefer greedy a b) -> reaches R a k -> reaches R e k.
  Proof. destruct greedy; intros He Ha; [eapply reaches_first|eapply reaches_second]; eassumption. Qed.
  Lemma reaches_exit R greedy e a b k : nth_error prog e = Some (prefer greedy a b) -> reaches R b k -> reaches R e k.
  Proof. destruct greedy; intros He Ha; [eapply reaches_second|eapply reaches_first]; eassumption. Qed.

  Definition one_after (join : list (option str) -> list (option str) -> list (option str)) (R S : meaning) : meaning := fun p m q c =>
    exists x y cx cy, m = x ++ y /\ c = join cx cy /\ R p x (y ++ q) cx /\ S (p ++ x) y q cy.
  Lemma passes_cat join R S e m k g1 n1 g2 n2 g n :
    (forall c c' sl sl1 sl2, List.length c = n1 -> List.length c' = n2 -> updates g1 c sl sl1 -> updates g2 c' sl1 sl2 ->
       updates g (join c c') sl sl2 /\ List.length (join c c') = n) ->
    passes R e m g1 n1 -> passes S m k g2 n2 -> passes (one_after join R S) e k g n.
  Proof.
    intros Hj Ha Hb l pre s sl f H1 H2 H3.
    destruct (Ha l pre s sl f H1 H2 H3) as (mid & rest & caps & sl1 & l1 & G1 & G2 & G3 & G4 & G5 & G6 & G7).
    rewrite <- app_length in G7.
    destruct (Hb l1 (pre ++ mid) rest sl1 f) as (mid' & rest' & caps' & sl2 & l2 & F1 & F2 & F3 & F4 & F5 & F6 & F7); [rewrite H1, G1; apply app_assoc|exact G5|exact G7|].
    destruct (Hj _ _ _ _ _ G3 F3 G4 F4) as [J1 J2].
    exists (mid ++ mid'), rest', (join caps caps'), sl2, l2. subst s rest. repeat split; auto.
    - now rewrite app_assoc.
    - exists mid, mid', caps, caps'. auto.
    - lia.
    - rewrite app_length in F7 |- *. now rewrite Nat.add_assoc.
  Qed.
  Lemma reaches_cat join R S e m k : reaches R e m -> reaches S m k -> reaches (one_after join R S) e k.
  Proof.
    intros Ha Hb pre mid rest caps Hs (x & y & cx & cy & -> & -> & HR & HS) sl. rewrite <- app_assoc in Hs.
    destruct (Ha pre x (y ++ rest) cx Hs HR sl) as [sl1 H1]. destruct (Hb (pre ++ x) y rest cy) with (sl := sl1) as [sl2 H2]; [now rewrite <- app_assoc|exact HS|].
    exists sl2. intros l f Hp. destruct (H2 l f) as [l1 Hl]; [rewrite app_length in Hp |- *; now rewrite <- Nat.add_assoc|]. rewrite app_length in Hl. exact (H1 _ _ Hl).
  Qed.

  Lemma passes_nothing {A} (none : list A) k g : passes (fun _ m _ c => m = [] /\ c = map (fun _ => None) none) k k g (List.length none).
  Proof.
    intros m pre s sl f H1 H2 H3. exists [], s, (map (fun _ => None) none), sl, m. repeat split; auto; [apply map_length|apply updates_none|].
    cbn. now rewrite Nat.add_0_r.
  Qed.
  Lemma reaches_nothing (c0 : list (option str)) k : reaches (fun _ m _ c => m = [] /\ c = c0) k k.
  Proof. intros pre mid rest caps Hs [-> ->] sl. exists sl. intros m f Hp. cbn in Hp. rewrite Nat.add_0_r in Hp. eauto. Qed.

  Section Repeat.
    Context (body : compiler) (r : re) (g : nat).
    Notation n := (List.length (groups r)).
    Context (Hb : right_code body (rm r) g n).
    (** So many iterations. *)
    Definition iterations (P : nat -> Prop) : meaning := fun p m q c => exists j, P j /\ rms j r p m q c.
    Lemma iterations_more (P Q : nat -> Prop) p m q c : (forall j, P j -> Q (S j)) -> one_after merge (rm r) (iterations P) p m q c -> iterations Q p m q c.
    Proof. intros H (x & y & cx & cy & -> & -> & HR & j & HP & HS). exists (S j). split; [auto|]. now constructor. Qed.
    Lemma more_iterations (P Q : nat -> Prop) p m q c : (forall j, P j -> exists i, j = S i /\ Q i) -> iterations P p m q c -> one_after merge (rm r) (iterations Q) p m q c.
    Proof.
      intros H (j & HP & HS). destruct (H j HP) as (i & -> & HQ). inversion HS; subst.
      eexists _, _, _, _. split; [reflexivity|]. split; [reflexivity|]. split; [eassumption|]. exists i. auto.
    Qed.
    Lemma no_iterations (P : nat -> Prop) p m q c : P 0%nat -> m = [] /\ c = no_captures r -> iterations P p m q c.
    Proof. intros H [-> ->]. exists 0%nat. split; [exact H|constructor]. Qed.

    Lemma right_copies (P : nat -> Prop) k0 j : forall k a, placed a (fst (copies body j k a)) ->
      (passes (iterations P) k k0 g n -> passes (iterations (fun i => exists i', i = (j + i')%nat /\ P i')) (snd (copies body j k a)) k0 g n) /\
      (reaches (iterations P) k k0 -> reaches (iterations (fun i => exists i', i = (j + i')%nat /\ P i')) (snd (copies body j k a)) k0).
    Proof.
      induction j as [|j IH]; intros k a Hp; cbn [copies] in *.
      - split; [intros H; eapply passes_weaken; [|exact H]|intros H; eapply reaches_weaken; [|exact H]]; intros p m q c (i & Hi & HS).
        + exists i. split; [exists i; auto|exact HS].
        + destruct Hi as (i' & -> & Hi). exists c, i'. auto.
      - specialize (IH k a). destruct (copies body j k a) as [code e] eqn:E1. specialize (Hb e (a + List.length code)%nat).
        destruct (body e (a + List.length code)%nat) as [code' e'] eqn:E2. cbn [fst snd] in *. apply placed_app in Hp as [Hp1 Hp2].
        destruct (IH Hp1) as [IH1 IH2]. destruct (Hb Hp2) as [Hb1 Hb2]. split.
        + intros H. eapply passes_weaken; [|eapply (passes_cat merge); [|exact Hb1|exact (IH1 H)]; intros; eapply updates_merge; eassumption].
          intros p m q c. apply iterations_more. intros i (i' & -> & Hi). exists i'. split; [lia|exact Hi].
        + intros H. eapply reaches_weaken; [|eapply (reaches_cat merge); [exact Hb2|exact (IH2 H)]].
          intros p m q c Hc. exists c. revert Hc. apply more_iterations. intros i (i' & -> & Hi). exists (j + i')%nat. split; [lia|eauto].
    Qed.
    Lemma right_optional greedy j : forall k a, placed a (fst (optional_copies body greedy j k a)) ->
      passes (iterations (fun i => i <= j)%nat) (snd (optional_copies body greedy j k a)) k g n /\
      reaches (iterations (fun i => i <= j)%nat) (snd (optional_copies body greedy j k a)) k.
    Proof.
      induction j as [|j IH]; intros k a Hp; cbn [optional_copies] in *.
      - split.
        + eapply passes_weaken; [|apply (passes_nothing (groups r))]. intros p m q c. now apply no_iterations.
        + eapply reaches_weaken; [|apply (reaches_nothing (no_captures r))]. intros p m q c (i & Hi & HS).
          assert (i = 0)%nat as -> by lia. apply rms_zero_inv in HS. exists (no_captures r). intuition.
      - specialize (IH k (S a)). destruct (optional_copies body greedy j k (S a)) as [code e] eqn:E1. specialize (Hb e (S a + List.length code)%nat).
        destruct (body e (S a + List.length code)%nat) as [code' e'] eqn:E2. cbn [fst snd] in *.
        apply placed_cons in Hp as [Hp0 Hp]. apply placed_app in Hp as [Hp1 Hp2].
        destruct (IH Hp1) as [IH1 IH2]. destruct (Hb Hp2) as [Hb1 Hb2]. split.
        + eapply passes_prefer; [exact Hp0| |].
          * eapply passes_weaken; [|eapply (passes_cat merge); [|exact Hb1|exact IH1]; intros; eapply updates_merge; eassumption].
            intros p m q c. apply iterations_more. lia.
          * eapply passes_weaken; [|apply (passes_nothing (groups r))]. intros p m q c. apply no_iterations. lia.
        + intros pre mid rest caps Hs (i & Hi & HS). destruct i as [|i].
          * apply rms_zero_inv in HS. eapply reaches_exit; [exact Hp0|apply (reaches_nothing (no_captures r))|exact Hs|exact HS].
          * eapply reaches_again; [exact Hp0|eapply (reaches_cat merge); [exact Hb2|exact IH2]|exact Hs|].
            apply (more_iterations (fun i' => i' = S i)); [|exists (S i); split; [reflexivity|exact HS]].
            intros i' ->. exists i. split; [reflexivity|lia].
    Qed.
    (** The state that decides on one more iteration. *)
    Lemma right_loop greedy k a : placed a (fst (loop body greedy k a)) ->
      (passes (iterations (fun _ => True)) a k g n /\ reaches (iterations (fun _ => True)) a k) /\
      (passes (iterations (fun i => 0 < i)%nat) (snd (loop body greedy k a)) k g n /\ reaches (iterations (fun i => 0 < i)%nat) (snd (loop body greedy k a)) k).
    Proof.
      unfold loop. specialize (Hb a (S a)). destruct (body a (S a)) as [code e] eqn:E. cbn [fst snd] in *. intros Hp.
      apply placed_cons in Hp as [Hp0 Hp]. destruct (Hb Hp) as [Hb1 Hb2].
      assert (H1 : passes (iterations (fun _ => True)) a k g n).
      { intros m. induction m as [m IH] using (well_founded_ind Wf_nat.lt_wf). intros pre s sl f Hs Hl Hpath.
        assert (Hex : forall m1, (m1 < m)%nat -> path m1 k (List.length pre) sl f -> exists mid rest caps sl' m', s = mid ++ rest /\ iterations (fun _ => True) pre mid rest caps /\
          List.length caps = n /\ updates g caps sl sl' /\ List.length sl' = L /\ (m' <= m)%nat /\ path m' k (List.length pre + List.length mid)%nat sl' f).
        { intros m1 Hm1 Hp1. exists [], s, (no_captures r), sl, m1. repeat split; auto; [now apply no_iterations|apply map_length|apply updates_none|lia|].
          cbn. now rewrite Nat.add_0_r. }
        assert (Hag : forall m1, (m1 < m)%nat -> path m1 e (List.length pre) sl f -> exists mid rest caps sl' m', s = mid ++ rest /\ iterations (fun _ => True) pre mid rest caps /\
          List.length caps = n /\ updates g caps sl sl' /\ List.length sl' = L /\ (m' <= m)%nat /\ path m' k (List.length pre + List.length mid)%nat sl' f).
        { intros m1 Hm1 Hp1. destruct (Hb1 m1 pre s sl f Hs Hl Hp1) as (mid & rest & caps & sl1 & l1 & G1 & G2 & G3 & G4 & G5 & G6 & G7).
          rewrite <- app_length in G7.
          destruct (IH l1 ltac:(lia) (pre ++ mid) rest sl1 f) as (mid' & rest' & caps' & sl2 & l2 & F1 & (j & _ & F2) & F3 & F4 & F5 & F6 & F7);
            [rewrite Hs, G1; apply app_assoc|exact G5|exact G7|].
          destruct (updates_merge subject n g caps caps' sl sl1 sl2 G3 F3 G4 F4) as [J1 J2].
          exists (mid ++ mid'), rest', (merge caps caps'), sl2, l2. subst s rest. repeat split; auto.
          - now rewrite app_assoc.
          - exists (S j). split; [trivial|now constructor].
          - lia.
          - rewrite app_length in F7 |- *. now rewrite Nat.add_assoc. }
        destruct greedy; cbn [prefer] in Hp0; inversion Hpath; subst; try congruence;
          match goal with H : nth_error prog a = Some (ISplit _ _) |- _ => rewrite H in Hp0; injection Hp0 as -> -> end; eauto. }
      assert (H2 : reaches (iterations (fun _ => True)) a k).
      { intros pre mid rest caps Hs (j & _ & HS). revert pre mid caps Hs HS. induction j as [|j IH]; intros pre mid caps Hs HS sl.
        - apply rms_zero_inv in HS. eapply reaches_exit; [exact Hp0|apply (reaches_nothing (no_captures r))|exact Hs|exact HS].
        - inversion HS as [|? ? ? x y ? cx cy HR HS']; subst. rewrite <- app_assoc in Hs.
          destruct (Hb2 pre x (y ++ rest) cx Hs HR sl) as [sl1 G1]. destruct (IH (pre ++ x) y cy) with (sl := sl1) as [sl2 G2]; [now rewrite <- app_assoc|exact HS'|].
          exists sl2. intros l f Hpath. destruct (G2 l f) as [l1 Hl1]; [rewrite app_length in Hpath |- *; now rewrite <- Nat.add_assoc|]. rewrite app_length in Hl1.
          destruct (G1 _ _ Hl1) as [l2 Hl2]. exists (S l2). destruct greedy; [eapply p_first|eapply p_second]; eassumption. }
      split; [split; assumption|]. split.
      - eapply passes_weaken; [|eapply (passes_cat merge); [|exact Hb1|exact H1]; intros; eapply updates_merge; eassumption].
        intros p m q c. apply iterations_more. lia.
      - eapply reaches_weaken; [|eapply (reaches_cat merge); [exact Hb2|exact H2]].
        intros p m q c Hc. exists c. revert Hc. apply more_iterations. intros [|i] Hi; [lia|eauto].
    Qed.
  End Repeat.

  Lemma right_repetition body r g some min max greedy : right_code body (rm r) g (List.length (groups r)) ->
    right_code (repetition body some min max greedy) (rm (RRep min max greedy r)) g (List.length (groups r)).
  Proof.
    intros Hb k a Hp. unfold repetition in *.
    assert (Hto : forall P : nat -> Prop, (forall j, P j -> min <= N.of_nat j /\ match max with Some n => N.of_nat j <= n | None => True end) ->
      forall p m q c, iterations r P p m q c -> rm (RRep min max greedy r) p m q c).
    { intros P HP p m q c (j & Hj & HS). destruct (HP j Hj). now apply (rm_rep _ _ _ j). }
    assert (Hfrom : forall P : nat -> Prop, (forall j, min <= N.of_nat j -> match max with Some n => N.of_nat j <= n | None => True end -> P j) ->
      forall p m q c, rm (RRep min max greedy r) p m q c -> exists c', iterations r P p m q c').
    { intros P HP p m q c H. inversion H; subst. exists c. eexists. split; [|eassumption]. auto. }
    destruct max as [mx|].
    - destruct (N.ltb_spec mx min) as [Hlt|Hle].
      + cbn [fst snd] in *. apply placed_cons in Hp as [Hp _]. split.
        * intros m pre s sl f _ _ Hpath. inversion Hpath; subst; congruence.
        * intros pre mid rest caps _ H. inversion H; subst. lia.
      + destruct (optional_copies body greedy (N.to_nat (mx - min)) k a) as [code e] eqn:E1.
        destruct (copies body (N.to_nat min) e (a + List.length code)%nat) as [code' e'] eqn:E2. cbn [fst snd] in *.
        apply placed_app in Hp as [Hp1 Hp2].
        pose proof (right_optional body r g Hb greedy (N.to_nat (mx - min)) k a) as H1. rewrite E1 in H1. cbn [fst snd] in H1. destruct (H1 Hp1) as [O1 O2].
        pose proof (right_copies body r g Hb (fun i => i <= N.to_nat (mx - min))%nat k (N.to_nat min) e (a + List.length code)%nat) as H2.
        rewrite E2 in H2. cbn [fst snd] in H2. destruct (H2 Hp2) as [C1 C2]. split.
        * eapply passes_weaken; [|exact (C1 O1)]. apply Hto. intros j (i & -> & Hi). lia.
        * eapply reaches_weaken; [|exact (C2 O2)]. apply Hfrom. intros j H3 H4. exists (j - N.to_nat min)%nat. lia.
    - destruct (N.to_nat min) as [|j] eqn:Emin.
      + destruct some.
        * cbn [fst snd] in *. destruct (right_loop body r g Hb greedy k a Hp) as [[H1 H2] _]. split.
          -- eapply passes_weaken; [|exact H1]. apply Hto. intros i _. lia.
          -- eapply reaches_weaken; [|exact H2]. apply Hfrom. auto.
        * pose proof (right_loop body r g Hb greedy k (S a)) as Hl. destruct (loop body greedy k (S a)) as [code e] eqn:E. cbn [fst snd] in *.
          apply placed_cons in Hp as [Hp0 Hp]. destruct (Hl Hp) as [_ [H1 H2]]. split.
          -- eapply passes_prefer; [exact Hp0| |].
             ++ eapply passes_weaken; [|exact H1]. apply Hto. intros i _. lia.
             ++ eapply passes_weaken; [|apply (passes_nothing (groups r))]. intros p m q c Hc. apply (Hto (fun i => i = 0%nat)); [lia|]. now apply no_iterations.
          -- intros pre mid rest caps Hs H. destruct (Hfrom (fun _ => True) (fun _ _ _ => I) _ _ _ _ H) as (c' & i & _ & HS). destruct i as [|i].
             ++ apply rms_zero_inv in HS. eapply reaches_exit; [exact Hp0|apply (reaches_nothing (no_captures r))|exact Hs|exact HS].
             ++ eapply reaches_again; [exact Hp0|exact H2|exact Hs|]. exists (S i). split; [lia|exact HS].
      + pose proof (right_loop body r g Hb greedy k a) as Hl. destruct (loop body greedy k a) as [code e] eqn:E1.
        pose proof (right_copies body r g Hb (fun i => 0 < i)%nat k j e (a + List.length code)%nat) as Hc.
        destruct (copies body j e (a + List.length code)%nat) as [code' e'] eqn:E2. cbn [fst snd] in *.
        apply placed_app in Hp as [Hp1 Hp2]. destruct (Hl Hp1) as [_ [H1 H2]]. destruct (Hc Hp2) as [C1 C2]. split.
        * eapply passes_weaken; [|exact (C1 H1)]. apply Hto. intros i (i' & -> & Hi). lia.
        * eapply reaches_weaken; [|exact (C2 H2)]. apply Hfrom. intros i H3 H4. exists (i - j)%nat. lia.
  Qed.

  Lemma path_one_inv a t k m p sl f : nth_error prog a = Some (IOne t k) -> path m a p sl f ->
    exists m0 c, m = S m0 /\ nth_error subject p = Some c /\ t c = true /\ path m0 k (S p) sl f.
  Proof. intros Ha H. inversion H; try congruence. rewrite Ha in *. match goal with E : Some _ = Some _ |- _ => injection E as -> -> end. eauto 6. Qed.
  Lemma path_look_inv a h k m p sl f : nth_error prog a = Some (ILook h k) -> path m a p sl f ->
    exists m0, m = S m0 /\ h (firstn p subject) (skipn p subject) = true /\ path m0 k p sl f.
  Proof. intros Ha H. inversion H; try congruence. rewrite Ha in *. match goal with E : Some _ = Some _ |- _ => injection E as -> -> end. eauto 6. Qed.
  Lemma path_save_inv a i k m p sl f : nth_error prog a = Some (ISave i k) -> path m a p sl f ->
    exists m0, m = S m0 /\ path m0 k p (set_slot i (Some p) sl) f.
  Proof. intros Ha H. inversion H; try congruence. rewrite Ha in *. match goal with E : Some _ = Some _ |- _ => injection E as -> -> end. eauto 6. Qed.
  Lemma passes_one (R : meaning) test a k g : nth_error prog a = Some (IOne test k) ->
    (forall c p q, test c = true -> R p [c] q []) -> passes R a k g 0.
  Proof.
    intros Ha HR m pre s sl f Hs Hl Hp. destruct (path_one_inv _ _ _ _ _ _ _ Ha Hp) as (m0 & d & -> & Hd & Ht & Hp').
    pose proof (here _ pre s Hs) as Hh. destruct s as [|d' s]; cbn [nth_error] in Hh; [congruence|].
    assert (d' = d) as -> by congruence.
    exists [d], s, [], sl, m0. repeat split; auto; [|cbn; now rewrite Nat.add_1_r]. apply (updates_none subject (@nil unit)).
  Qed.
  Lemma reaches_one (R : meaning) test a k : nth_error prog a = Some (IOne test k) ->
    (forall c p m q, R p m q c -> exists d, m = [d] /\ test d = true) -> reaches R a k.
  Proof.
    intros Ha HR pre mid rest caps Hs H sl. destruct (HR _ _ _ _ H) as (d & -> & Ht). exists sl. intros m f Hp. exists (S m).
    cbn in Hp. rewrite Nat.add_1_r in Hp. eapply p_one; [exact Ha| |exact Ht|exact Hp]. now rewrite (here _ pre ([d] ++ rest) Hs).
  Qed.
  Lemma right_look l a k g : nth_error prog a = Some (ILook (look_holds word l) k) -> passes (rm (RLook l)) a k g 0 /\ reaches (rm (RLook l)) a k.
  Proof.
    intros Ha. split.
    - intros m pre s sl f Hs Hl Hp. destruct (path_look_inv _ _ _ _ _ _ _ Ha Hp) as (m0 & -> & Hh & Hp').
      destruct (split_here _ pre s Hs) as [E1 E2]. rewrite E1, E2 in Hh.
      exists [], s, [], sl, m0. repeat split; auto; [|apply (updates_none subject (@nil unit))|cbn; now rewrite Nat.add_0_r].
      destruct l; cbn [look_holds] in Hh; [destruct pre; [constructor|discriminate]|destruct s; [constructor|discriminate]|now constructor|].
      apply Bool.negb_true_iff in Hh. now constructor.
    - intros pre mid rest caps Hs H sl. assert (mid = [] /\ look_holds word l pre rest = true) as [-> Hh].
      { inversion H; subst; split; auto. cbn [look_holds]. now apply Bool.negb_true_iff. }
      exists sl. intros m f Hp. cbn in Hp. rewrite Nat.add_0_r in Hp. exists (S m). destruct (split_here _ pre rest Hs) as [E1 E2].
      eapply p_look; [exact Ha|now rewrite E1, E2|exact Hp].
  Qed.

  Lemma compile_right r : forall g, (2 * (g + List.length (groups r)) <= L)%nat ->
    right_code (compile digit space word r g) (rm r) g (List.length (groups r)).
  Proof.
    induction r as [|c| |s|l|min max greedy r IH|nm r IH|a IHa b IHb|a IHa b IHb]; intros g HL k n Hp; cbn [compile fst snd] in Hp |- *.
    - split.
      + eapply passes_weaken; [|apply (passes_nothing (@nil unit))]. intros p m q c [-> ->]. constructor.
      + eapply reaches_weaken; [|apply (reaches_nothing [])]. intros p m q c H. inversion H; subst. exists []. auto.
    - apply placed_cons in Hp as [Hp _]. split.
      + eapply passes_one; [exact Hp|]. intros d p q E. apply N.eqb_eq in E as <-. constructor.
      + eapply reaches_one; [exact Hp|]. intros d p m q H. inversion H; subst. exists c. split; [reflexivity|apply N.eqb_refl].
    - apply placed_cons in Hp as [Hp _]. split.
      + eapply passes_one; [exact Hp|]. intros d p q E. constructor. intros ->. discriminate E.
      + eapply reaches_one; [exact Hp|]. intros d p m q H. inversion H; subst. eexists. split; [reflexivity|]. now apply Bool.negb_true_iff, N.eqb_neq.
    - apply placed_cons in Hp as [Hp _]. split.
      + eapply passes_one; [exact Hp|]. intros d p q E. now constructor.
      + eapply reaches_one; [exact Hp|]. intros d p m q H. inversion H; subst. eauto.
    - apply placed_cons in Hp as [Hp _]. now apply right_look.
    - cbn [groups] in HL |- *. now apply right_repetition; [apply IH|].
    - cbn [groups List.length] in HL |- *. specialize (IH (S g) ltac:(lia) n (S (S n))).
      destruct (compile digit space word r (S g) n (S (S n))) as [code e] eqn:E. cbn [fst snd] in *.
      apply placed_cons in Hp as [Hp0 Hp]. apply placed_cons in Hp as [Hp1 Hp]. destruct (IH Hp) as [IH1 IH2]. split.
      + intros m pre s0 sl f Hs Hl Hpath. destruct (path_save_inv _ _ _ _ _ _ _ Hp1 Hpath) as (m0 & -> & Hpath').
        destruct (IH1 m0 pre s0 (set_slot (2 * g) (Some (List.length pre)) sl) f) as (mid & rest & caps & sl' & m' & G1 & G2 & G3 & G4 & G5 & G6 & G7);
          [exact Hs|now rewrite set_slot_length|assumption|].
        destruct (path_save_inv _ _ _ _ _ _ _ Hp0 G7) as (m & -> & Hpath'').
        exists mid, rest, (Some mid :: caps), (set_slot (S (2 * g)) (Some (List.length pre + List.length mid)%nat) sl'), m.
        repeat split; auto; [now constructor|cbn; now rewrite G3| |now rewrite set_slot_length|lia].
        apply (updates_group subject L g pre s0 mid rest caps sl sl'); auto; lia.
      + intros pre mid rest caps Hs H sl. inversion H; subst.
        match goal with H : rm r _ _ _ _ |- _ => destruct (IH2 pre mid rest _ Hs H (set_slot (2 * g) (Some (List.length pre)) sl)) as [sl' H'] end.
        exists (set_slot (S (2 * g)) (Some (List.length pre + List.length mid)%nat) sl'). intros m f Hpath.
        destruct (H' (S m) f) as [m' Hm]; [eapply p_save; [exact Hp0|exact Hpath]|]. exists (S m'). eapply p_save; [exact Hp1|exact Hm].
    - cbn [groups] in HL |- *. rewrite app_length in HL |- *.
      specialize (IHb (g + List.length (groups a))%nat ltac:(lia) k n).
      destruct (compile digit space word b (g + List.length (groups a)) k n) as [code e] eqn:E1.
      specialize (IHa g ltac:(lia) e (n + List.length code)%nat).
      destruct (compile digit space word a g e (n + List.length code)%nat) as [code' e'] eqn:E2. cbn [fst snd] in *.
      apply placed_app in Hp as [Hp1 Hp2]. destruct (IHb Hp1) as [B1 B2]. destruct (IHa Hp2) as [A1 A2]. split.
      + eapply passes_weaken; [|eapply (passes_cat (@app _)); [|exact A1|exact B1]; intros; eapply updates_app; eassumption].
        intros p m q c (x & y & cx & cy & -> & -> & H1 & H2). now constructor.
      + eapply reaches_weaken; [|eapply (reaches_cat (@app _)); [exact A2|exact B2]].
        intros p m q c H. apply rm_cat_inv in H as (x & y & cx & cy & -> & -> & H1 & H2). exists (cx ++ cy), x, y, cx, cy. auto.
    - cbn [groups] in HL |- *. rewrite app_length in HL |- *.
      specialize (IHa g ltac:(lia) k (S n)).
      destruct (compile digit space word a g k (S n)) as [code e] eqn:E1.
      specialize (IHb (g + List.length (groups a))%nat ltac:(lia) k (S n + List.length code)%nat).
      destruct (compile digit space word b (g + List.length (groups a))%nat k (S n + List.length code)%nat) as [code' e'] eqn:E2. cbn [fst snd] in *.
      apply placed_cons in Hp as [Hp0 Hp]. apply placed_app in Hp as [Hp1 Hp2]. destruct (IHb Hp2) as [B1 B2]. destruct (IHa Hp1) as [A1 A2]. split.
      + eapply passes_split; [exact Hp0| |].
        * intros m pre s0 sl f Hs Hl Hpath. destruct (A1 m pre s0 sl f Hs Hl Hpath) as (mid & rest & caps & sl' & m' & G1 & G2 & G3 & G4 & G5 & G6 & G7).
          destruct (updates_app subject _ (List.length (groups b)) g caps (no_captures b) sl sl' sl' G3) as [U1 U2]; [apply map_length|exact G4|apply updates_none|].
          exists mid, rest, (caps ++ no_captures b), sl', m'. repeat split; auto. now constructor.
        * intros m pre s0 sl f Hs Hl Hpath. destruct (B1 m pre s0 sl f Hs Hl Hpath) as (mid & rest & caps & sl' & m' & G1 & G2 & G3 & G4 & G5 & G6 & G7).
          destruct (updates_app subject (List.length (groups a)) _ g (no_captures a) caps sl sl sl' ltac:(apply map_length) G3) as [U1 U2]; [apply updates_none|exact G4|].
          exists mid, rest, (no_captures a ++ caps), sl', m'. repeat split; auto. now constructor.
      + intros pre mid rest caps Hs H. apply rm_alt_inv in H as [(d & -> & H)|(d & -> & H)].
        * exact (reaches_first _ _ _ _ _ Hp0 A2 pre mid rest d Hs H).
        * exact (reaches_second _ _ _ _ _ Hp0 B2 pre mid rest d Hs H).
  Qed.
End Code.

(** For any regex: the leftmost match, with the groups of one way to match it, or none if there is none. *)
Lemma automaton_right digit space word r s n x : automaton_captures digit space word r s n = Some x ->
  match x with
  | None => ~ is_match digit space word r s
  | Some c => exists pre mid post caps, s = pre ++ mid ++ post /\ rm digit space word r pre mid post caps /\ c = Some mid :: caps /\
      forall pre' mid' post' caps', s = pre' ++ mid' ++ post' -> rm digit space word r pre' mid' post' caps' ->
        (List.length pre <= List.length pre')%nat
  end.
Proof.
  unfold automaton_captures, backtrack. set (prog := program digit space word r). set (e := entry digit space word r).
  set (G := S (List.length (groups r))). set (empty := repeat None (2 * G)).
  destruct (turns prog e s n _) as [y|] eqn:E; [|discriminate]. cbn [option_map]. intros Ex. injection Ex as <-.
  pose proof (turns_result prog s e empty n _ y (good_first prog s e empty) E) as H.
  destruct (compile_right digit space word prog s (2 * G) (RCap None r) 0%nat (Nat.le_refl _) 0%nat 1%nat (program_placed digit space word r)) as [Hpass Hreach].
  assert (Hlen : List.length empty = (2 * G)%nat) by apply repeat_length.
  assert (Hsome : forall pre mid post caps, s = pre ++ mid ++ post -> rm digit space word r pre mid post caps -> ~ hopeless prog s (e, List.length pre)).
  { intros pre mid post caps Hs Hr Hno. destruct (Hreach pre mid post _ Hs (rm_cap _ _ _ None _ _ _ _ _ Hr) empty) as [sl' Hp].
    destruct (Hp 0%nat sl') as [m Hm]; [now apply p_match|]. exact (Hno _ _ _ Hm). }
  destruct y as [sl|]; cbn [option_map].
  - destruct H as (q & m & Hq & Hp & Hleft).
    assert (Hq' : List.length (firstn q s) = q) by (rewrite firstn_length; lia). rewrite <- Hq' in Hp.
    destruct (Hpass m (firstn q s) (skipn q s) empty sl) as (mid & rest & caps & sl' & m' & G1 & G2 & G3 & G4 & G5 & G6 & G7);
      [now rewrite firstn_skipn|exact Hlen|exact Hp|].
    apply rm_cap_inv in G2 as (d & -> & G2).
    assert (H0 : nth_error prog 0 = Some IMatch) by reflexivity. assert (sl' = sl) as -> by (inversion G7; congruence).
    exists (firstn q s), mid, rest, d. split; [rewrite <- G1; now rewrite firstn_skipn|]. split; [exact G2|]. split.
    + now apply read_all.
    + intros pre' mid' post' caps' Hs' Hr'. destruct (Nat.le_gt_cases (List.length (firstn q s)) (List.length pre')) as [|Hlt]; [assumption|].
      exfalso. apply (Hsome _ _ _ _ Hs' Hr'). apply Hleft. lia.
  - intros (pre & mid & post & caps & Hs & Hr). apply (Hsome _ _ _ _ Hs Hr). apply H. rewrite Hs, app_length. lia.
Qed.
