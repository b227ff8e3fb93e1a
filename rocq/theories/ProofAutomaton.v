(** Proofs about the compiler of Automaton.v: entered at its first state, the code of a regex tries the matches that
    Match.v lists, in their order, and goes on from each of them. *)
From Verif Require Export ProofMatch ProofBacktrack SpecAutomaton.
Require Import Lia PeanoNat.

Lemma proper_moving digit space word r : proper_loops digit space word r -> moving_loops digit space word r.
Proof.
  induction r as [| | | | |min max g r IH|n r IH|a IHa b IHb|a IHa b IHb]; cbn; auto; try (intros [Ha Hb]; split; auto; fail).
  intros [Hr Hl]. split; [auto|]. intros ->. destruct Hl as [(n & Hn & _)|Hl]; [discriminate|exact Hl].
Qed.

Definition cap_at (c : list (option str)) (g i : nat) : option str := if Nat.ltb i g then None else nth (i - g) c None.
Lemma cap_at_none {A} (l : list A) g i : cap_at (map (fun _ => None) l) g i = None.
Proof.
  unfold cap_at. destruct (Nat.ltb i g); [easy|]. generalize (i - g)%nat. induction l as [|x l IH]; intros [|j]; cbn; auto.
Qed.
Lemma cap_at_app a b g i : cap_at (a ++ b) g i =
  match cap_at a g i with Some t => Some t | None => cap_at b (g + List.length a) i end.
Proof.
  unfold cap_at. destruct (Nat.ltb_spec i g) as [H|H].
  - destruct (Nat.ltb_spec i (g + List.length a)); [easy|lia].
  - destruct (Nat.ltb_spec i (g + List.length a)) as [H'|H'].
    + rewrite app_nth1 by lia. now destruct (nth _ a None).
    + rewrite app_nth2, (nth_overflow a) by lia. f_equal. lia.
Qed.
Lemma cap_at_merge a b g i : List.length a = List.length b -> cap_at (merge a b) g i =
  match cap_at b g i with Some t => Some t | None => cap_at a g i end.
Proof.
  unfold cap_at. destruct (Nat.ltb i g); [easy|]. generalize (i - g)%nat. revert b.
  induction a as [|x a IH]; intros [|y b] [|j] H; try discriminate H; cbn; try easy; [now destruct y|].
  apply IH. now injection H.
Qed.
Lemma merge_length a b : List.length a = List.length b -> List.length (merge a b) = List.length a.
Proof. revert b. induction a as [|x a IH]; intros [|y b] H; try discriminate H; cbn; auto. Qed.

Section Code.
  Context (digit space word : char -> bool) (prog : list inst) (subject : str) (L : nat).
  Notation outcomes := (outcomes prog subject).
  Notation ways := (ways digit space word).
  Notation rm := (rm digit space word).

  Definition placed (n : nat) (code : list inst) : Prop := forall i x, nth_error code i = Some x -> nth_error prog (n + i) = Some x.
  Lemma placed_app n a b : placed n (a ++ b) -> placed n a /\ placed (n + List.length a) b.
  Proof.
    intros H. split; intros i x Hx.
    - apply H. rewrite nth_error_app1; [exact Hx|]. apply nth_error_Some. congruence.
    - rewrite <- Nat.add_assoc. apply H. rewrite nth_error_app2 by lia. rewrite <- Hx. f_equal. lia.
  Qed.
  Lemma placed_cons n x c : placed n (x :: c) -> nth_error prog n = Some x /\ placed (S n) c.
  Proof.
    intros H. split; [rewrite <- (Nat.add_0_r n); now apply H|]. intros i y Hy. replace (S n + i)%nat with (n + S i)%nat by lia. now apply H.
  Qed.

  Definition pair_at (sl : slots) (i : nat) : option nat * option nat := (nth (2 * i) sl None, nth (S (2 * i)) sl None).
  Definition reads (sl : slots) (i : nat) (t : str) : Prop :=
    exists a b, pair_at sl i = (Some a, Some b) /\ firstn (b - a) (skipn a subject) = t.
  Lemma reads_same sl sl' i t : pair_at sl' i = pair_at sl i -> reads sl i t -> reads sl' i t.
  Proof. intros E (a & b & H & Ht). exists a, b. now rewrite E. Qed.
  (** The groups [c], the first of which is the [g]th, were set, the others were left. *)
  Definition updates (g : nat) (c : list (option str)) (sl sl' : slots) : Prop :=
    forall i, match cap_at c g i with Some t => reads sl' i t | None => pair_at sl' i = pair_at sl i end.
  Lemma updates_none {A} (l : list A) g sl : updates g (map (fun _ => None) l) sl sl.
  Proof. intros i. now rewrite cap_at_none. Qed.
  Lemma updates_merge n g c c' sl sl1 sl2 : List.length c = n -> List.length c' = n ->
    updates g c sl sl1 -> updates g c' sl1 sl2 -> updates g (merge c c') sl sl2 /\ List.length (merge c c') = n.
  Proof.
    intros Hc Hc' H1 H2. split; [|rewrite merge_length; congruence]. intros i. rewrite cap_at_merge by congruence.
    specialize (H1 i). specialize (H2 i). destruct (cap_at c' g i); [exact H2|].
    destruct (cap_at c g i); [now apply (reads_same sl1)|congruence].
  Qed.
  Lemma updates_app n n' g c c' sl sl1 sl2 : List.length c = n -> List.length c' = n' ->
    updates g c sl sl1 -> updates (g + n) c' sl1 sl2 -> updates g (c ++ c') sl sl2 /\ List.length (c ++ c') = (n + n')%nat.
  Proof.
    intros Hc Hc' H1 H2. split; [|rewrite app_length; congruence]. intros i. rewrite cap_at_app. subst n.
    specialize (H1 i). specialize (H2 i). destruct (cap_at c g i) as [t|] eqn:E; [|destruct (cap_at c' _ i); [exact H2|congruence]].
    assert (E' : cap_at c' (g + List.length c) i = None).
    { unfold cap_at in *. destruct (Nat.ltb_spec i g); [discriminate|]. destruct (Nat.ltb_spec i (g + List.length c)); [easy|].
      rewrite nth_overflow in E by lia. discriminate. }
    rewrite E' in H2. now apply (reads_same sl1).
  Qed.

  (** * From [pc], the code tries [ws] and goes on at [k]. *)
  Definition after (pre s : str) (g n : nat) (sl : slots) (t : way * slots) : Prop :=
    List.length (snd t) = L /\ List.length (w_caps (fst t)) = n /\ updates g (w_caps (fst t)) sl (snd t) /\
    s = w_mid (fst t) ++ w_rest (fst t).
  Definition goes_on (k : nat) (pre : str) (t : way * slots) (l : list slots) : Prop :=
    outcomes k (List.length pre + List.length (w_mid (fst t)))%nat (snd t) l.
  Definition tries (ws : list way) (pc k g n : nat) (pre s : str) : Prop :=
    forall sl, List.length sl = L -> exists ts,
      map fst ts = ws /\ Forall (after pre s g n sl) ts /\
      forall ls, Forall2 (goes_on k pre) ts ls -> outcomes pc (List.length pre) sl (List.concat ls).

  Lemma tries_nothing {A} (none : list A) k g pre s : tries (nothing (map (fun _ => None) none) pre s) k k g (List.length none) pre s.
  Proof.
    intros sl Hl. exists [(mkway [] s (map (fun _ => None) none), sl)]. split; [reflexivity|]. split.
    - constructor; [|constructor]. repeat split; cbn [fst snd w_caps w_mid w_rest]; auto; [apply map_length|apply updates_none].
    - intros ls H. inversion H as [|? l ? ? H1 H2]; subst. inversion H2; subst. cbn. rewrite app_nil_r.
      unfold goes_on in H1. cbn in H1. now rewrite Nat.add_0_r in H1.
  Qed.
  Lemma tries_split wa wb pc a b k g n pre s : nth_error prog pc = Some (ISplit a b) ->
    tries wa a k g n pre s -> tries wb b k g n pre s -> tries (wa ++ wb) pc k g n pre s.
  Proof.
    intros Hpc Ha Hb sl Hl. destruct (Ha sl Hl) as (ta & Ea & Fa & Oa). destruct (Hb sl Hl) as (tb & Eb & Fb & Ob).
    exists (ta ++ tb). split; [rewrite map_app; congruence|]. split; [now apply Forall_app|].
    intros ls H. apply Forall2_app_inv_l in H as (l1 & l2 & H1 & H2 & ->). rewrite concat_app. eapply o_split; eauto.
  Qed.
  Lemma tries_prefer (greedy : bool) wa wb pc a b k g n pre s : nth_error prog pc = Some (prefer greedy a b) ->
    tries wa a k g n pre s -> tries wb b k g n pre s -> tries (if greedy then wa ++ wb else wb ++ wa) pc k g n pre s.
  Proof. destruct greedy; intros H Ha Hb; now eapply tries_split; [exact H|..]. Qed.
  Lemma tries_followed join next ws pc m k g1 n1 g2 n2 g n pre s :
    (forall c c' sl sl1 sl2, List.length c = n1 -> List.length c' = n2 -> updates g1 c sl sl1 -> updates g2 c' sl1 sl2 ->
       updates g (join c c') sl sl2 /\ List.length (join c c') = n) ->
    tries ws pc m g1 n1 pre s ->
    (forall w, In w ws -> s = w_mid w ++ w_rest w -> tries (next (pre ++ w_mid w) (w_rest w)) m k g2 n2 (pre ++ w_mid w) (w_rest w)) ->
    tries (followed join pre next ws) pc k g n pre s.
  Proof.
    intros Hj Ha Hb sl Hl. destruct (Ha sl Hl) as (ta & Ea & Fa & Oa). subst ws.
    enough (exists ts, map fst ts = followed join pre next (map fst ta) /\ Forall (after pre s g n sl) ts /\
      forall ls, Forall2 (goes_on k pre) ts ls -> exists la, Forall2 (goes_on m pre) ta la /\ List.concat la = List.concat ls) as (ts & Et & Ft & Ot).
    { exists ts. split; [exact Et|]. split; [exact Ft|]. intros ls H. destruct (Ot ls H) as (la & Hla & <-). auto. }
    clear Oa Ha. induction Fa as [|[w sl1] ta Hw Fa IH].
    - exists []. split; [reflexivity|]. split; [constructor|]. intros ls H. inversion H. exists []. split; [constructor|reflexivity].
    - destruct IH as (ts & Et & Ft & Ot); [intros v Hv; apply Hb; now right|].
      destruct Hw as (H1 & H2 & H3 & H4). cbn [fst snd] in *.
      destruct (Hb w (or_introl eq_refl) H4 sl1 H1) as (tb & Eb & Fb & Ob).
      exists (map (fun t => (mkway (w_mid w ++ w_mid (fst t)) (w_rest (fst t)) (join (w_caps w) (w_caps (fst t))), snd t)) tb ++ ts).
      split; [|split].
      + rewrite map_app, map_map, Et. cbn [map followed flat_map]. f_equal. cbn [fst]. rewrite <- Eb, map_map. reflexivity.
      + apply Forall_app. split; [|exact Ft]. apply Forall_map. eapply Forall_impl; [|exact Fb].
        intros [v sl2] (G1 & G2 & G3 & G4). cbn [fst snd] in *. destruct (Hj _ _ _ _ _ H2 G2 H3 G3) as [J1 J2].
        repeat split; cbn [fst snd w_caps w_mid w_rest]; auto. rewrite <- app_assoc. congruence.
      + intros ls H. apply Forall2_app_inv_l in H as (l1 & l2 & E1 & E2 & ->). destruct (Ot l2 E2) as (la & Hla & Hc).
        exists (List.concat l1 :: la). split; [|cbn; rewrite concat_app; congruence]. constructor; [|exact Hla].
        unfold goes_on at 1. cbn [fst snd]. rewrite <- app_length. apply Ob.
        clear -E1. revert l1 E1. induction tb as [|t tb IH]; intros l1 E1; inversion E1; subst; constructor; [|now apply IH].
        match goal with H : goes_on _ _ _ _ |- _ => unfold goes_on in *; cbn [fst snd w_mid] in H; rewrite app_length in *; now rewrite <- Nat.add_assoc end.
  Qed.
  Definition recap (f : list (option str) -> list (option str)) (w : way) : way := mkway (w_mid w) (w_rest w) (f (w_caps w)).
  Lemma tries_recap f ws pc k g n g' n' pre s :
    (forall c sl sl', List.length c = n -> updates g c sl sl' -> updates g' (f c) sl sl' /\ List.length (f c) = n') ->
    tries ws pc k g n pre s -> tries (map (recap f) ws) pc k g' n' pre s.
  Proof.
    intros Hf H sl Hl. destruct (H sl Hl) as (ts & <- & Ft & Ot). exists (map (fun t => (recap f (fst t), snd t)) ts).
    split; [now rewrite !map_map|]. split.
    - apply Forall_map. eapply Forall_impl; [|exact Ft]. intros [w sl'] (H1 & H2 & H3 & H4). cbn [fst snd] in *.
      destruct (Hf _ _ _ H2 H3). repeat split; cbn [fst snd w_caps w_mid w_rest recap]; auto.
    - intros ls Hls. apply Ot. clear -Hls. revert ls Hls. induction ts as [|t ts IH]; intros l1 E1; inversion E1; subst; constructor; auto.
  Qed.

  (** * Compilers *)
  Definition compiles (body : compiler) (M : matcher) (g n : nat) : Prop :=
    forall k a, placed a (fst (body k a)) -> forall pre s, subject = pre ++ s -> tries (M pre s) (snd (body k a)) k g n pre s.

  Section Repeat.
    Context (body : compiler) (M : matcher) (none : re) (g : nat).
    Notation n := (List.length (groups none)).
    Context (Hb : compiles body M g n).
    Lemma mid_subject pre s w : subject = pre ++ s -> s = w_mid w ++ w_rest w -> subject = (pre ++ w_mid w) ++ w_rest w.
    Proof. intros -> ->. now rewrite app_assoc. Qed.

    Lemma tries_copies next k0 j : forall k a, placed a (fst (copies body j k a)) ->
      (forall pre s, subject = pre ++ s -> tries (next pre s) k k0 g n pre s) ->
      forall pre s, subject = pre ++ s -> tries (required M next j pre s) (snd (copies body j k a)) k0 g n pre s.
    Proof.
      induction j as [|j IH]; intros k a Hp Hn pre s Hs; cbn [copies required] in *; [now apply Hn|].
      destruct (copies body j k a) as [code e] eqn:E1. destruct (body e (a + List.length code)%nat) as [code' e'] eqn:E2. cbn [fst snd] in *.
      apply placed_app in Hp as [Hp1 Hp2].
      eapply tries_followed; [intros; eapply updates_merge; eassumption| |].
      - specialize (Hb e (a + List.length code)%nat). rewrite E2 in Hb. cbn [fst snd] in Hb. now apply Hb.
      - intros w _ Hw. specialize (IH k a). rewrite E1 in IH. cbn [fst snd] in IH. apply IH; auto. now apply mid_subject with (s := s).
    Qed.
    Lemma tries_optional greedy j : forall k a, placed a (fst (optional_copies body greedy j k a)) ->
      forall pre s, subject = pre ++ s -> tries (at_most M (no_captures none) greedy j pre s) (snd (optional_copies body greedy j k a)) k g n pre s.
    Proof.
      induction j as [|j IH]; intros k a Hp pre s Hs; cbn [optional_copies at_most] in *; [apply tries_nothing|].
      specialize (IH k (S a)).
      destruct (optional_copies body greedy j k (S a)) as [code e] eqn:E1. destruct (body e (S a + List.length code)%nat) as [code' e'] eqn:E2. cbn [fst snd] in *.
      apply placed_cons in Hp as [Hp0 Hp]. apply placed_app in Hp as [Hp1 Hp2].
      eapply tries_prefer; [exact Hp0| |apply tries_nothing].
      eapply tries_followed; [intros; eapply updates_merge; eassumption| |].
      - specialize (Hb e (S a + List.length code)%nat). rewrite E2 in Hb. cbn [fst snd] in Hb. now apply Hb.
      - intros w _ Hw. apply IH; auto. now apply mid_subject with (s := s).
    Qed.

    (** A body that reads something. *)
    Context (Hm : forall pre s w, In w (M pre s) -> w_mid w <> []).
    Lemma all_moving pre s : filter (fun w => match w_mid w with [] => false | _ => true end) (M pre s) = M pre s.
    Proof.
      assert (H := Hm pre s). induction (M pre s) as [|w l IH]; [reflexivity|]. cbn [filter].
      destruct (w_mid w) eqn:E; [now destruct (H w (or_introl eq_refl))|]. f_equal. apply IH. intros v Hv. apply H. now right.
    Qed.
    Lemma tries_further greedy k a : placed a (fst (loop body greedy k a)) ->
      forall fuel pre s, subject = pre ++ s -> (List.length s < fuel)%nat -> tries (further M (no_captures none) greedy fuel pre s) a k g n pre s.
    Proof.
      unfold loop. destruct (body a (S a)) as [code e] eqn:E. cbn [fst snd]. intros Hp. apply placed_cons in Hp as [Hp0 Hp].
      induction fuel as [|fuel IH]; intros pre s Hs Hf; [lia|]. cbn [further]. rewrite all_moving.
      eapply tries_prefer; [exact Hp0| |apply tries_nothing].
      eapply tries_followed; [intros; eapply updates_merge; eassumption| |].
      - specialize (Hb a (S a)). rewrite E in Hb. cbn [fst snd] in Hb. now apply Hb.
      - intros w Hi Hw. apply IH; [now apply mid_subject with (s := s)|]. apply Hm in Hi. destruct (w_mid w) as [|c m]; [easy|].
        rewrite Hw in Hf. cbn in Hf. rewrite app_length in Hf. lia.
    Qed.
    Lemma at_least_one_moving greedy pre s : at_least_one M (no_captures none) greedy pre s =
      followed merge pre (further M (no_captures none) greedy (S (List.length s))) (M pre s).
    Proof.
      unfold at_least_one, followed at 3. assert (H := Hm pre s). induction (M pre s) as [|w l IH]; [reflexivity|]. cbn [flat_map].
      rewrite IH by (intros v Hv; apply H; now right). destruct (w_mid w) as [|c m] eqn:E; [now destruct (H w (or_introl eq_refl))|].
      f_equal. unfold followed. cbn [flat_map]. now rewrite app_nil_r, E.
    Qed.
    Lemma tries_loop greedy k a : placed a (fst (loop body greedy k a)) ->
      forall pre s, subject = pre ++ s -> tries (at_least_one M (no_captures none) greedy pre s) (snd (loop body greedy k a)) k g n pre s.
    Proof.
      intros Hp pre s Hs. rewrite at_least_one_moving. assert (Hf := tries_further greedy k a Hp).
      revert Hp. unfold loop in *. destruct (body a (S a)) as [code e] eqn:E. cbn [fst snd]. intros Hp. apply placed_cons in Hp as [Hp0 Hp].
      eapply tries_followed; [intros; eapply updates_merge; eassumption| |].
      - specialize (Hb a (S a)). rewrite E in Hb. cbn [fst snd] in Hb. now apply Hb.
      - intros w _ Hw. apply Hf; [now apply mid_subject with (s := s)|]. rewrite Hw, app_length. lia.
    Qed.
    Lemma tries_star greedy k a : placed a (fst (loop body greedy k a)) ->
      forall pre s, subject = pre ++ s ->
        tries (if greedy then at_least_one M (no_captures none) greedy pre s ++ nothing (no_captures none) pre s
               else nothing (no_captures none) pre s ++ at_least_one M (no_captures none) greedy pre s) a k g n pre s.
    Proof.
      intros Hp pre s Hs. assert (Hl := tries_loop greedy k a Hp pre s Hs).
      revert Hp Hl. unfold loop. destruct (body a (S a)) as [code e] eqn:E. cbn [fst snd]. intros Hp Hl. apply placed_cons in Hp as [Hp0 Hp].
      eapply tries_prefer; [exact Hp0|exact Hl|apply tries_nothing].
    Qed.
  End Repeat.

  Lemma compiles_repetition body M r g some min max greedy : compiles body M g (List.length (groups r)) ->
    (max = None -> forall pre s w, In w (M pre s) -> w_mid w <> []) ->
    compiles (repetition body some min max greedy) (repeated M (no_captures r) min max greedy) g (List.length (groups r)).
  Proof.
    intros Hb Hm k a Hp pre s Hs. unfold repetition, repeated in *. destruct max as [m|].
    - destruct (m <? min).
      + cbn [fst snd] in *. apply placed_cons in Hp as [Hp _]. intros sl Hl. exists []. split; [reflexivity|]. split; [constructor|].
        intros ls H. inversion H. cbn. now apply o_fail.
      + destruct (optional_copies body greedy (N.to_nat (m - min)) k a) as [code e] eqn:E1.
        destruct (copies body (N.to_nat min) e (a + List.length code)%nat) as [code' e'] eqn:E2. cbn [fst snd] in *.
        apply placed_app in Hp as [Hp1 Hp2].
        pose proof (tries_copies body M r g Hb (at_most M (no_captures r) greedy (N.to_nat (m - min))) k (N.to_nat min) e (a + List.length code)%nat) as H.
        rewrite E2 in H. cbn [fst snd] in H. apply H; auto. intros pre' s' Hs'.
        pose proof (tries_optional body M r g Hb greedy (N.to_nat (m - min)) k a) as H'. rewrite E1 in H'. cbn [fst snd] in H'. auto.
    - specialize (Hm eq_refl). destruct (N.to_nat min) as [|j].
      + destruct some.
        * cbn [fst snd] in *. exact (tries_star body M r g Hb Hm greedy k a Hp pre s Hs).
        * destruct (loop body greedy k (S a)) as [code e] eqn:E. cbn [fst snd] in *. apply placed_cons in Hp as [Hp0 Hp].
          eapply tries_prefer; [exact Hp0| |apply tries_nothing].
          pose proof (tries_loop body M r g Hb Hm greedy k (S a)) as H. rewrite E in H. cbn [fst snd] in H. auto.
      + destruct (loop body greedy k a) as [code e] eqn:E1.
        destruct (copies body j e (a + List.length code)%nat) as [code' e'] eqn:E2. cbn [fst snd] in *.
        apply placed_app in Hp as [Hp1 Hp2].
        pose proof (tries_copies body M r g Hb (at_least_one M (no_captures r) greedy) k j e (a + List.length code)%nat) as H.
        rewrite E2 in H. cbn [fst snd] in H. apply H; auto. intros pre' s' Hs'.
        pose proof (tries_loop body M r g Hb Hm greedy k a) as H'. rewrite E1 in H'. cbn [fst snd] in H'. auto.
  Qed.

  Lemma here (pre s : str) : subject = pre ++ s -> nth_error subject (List.length pre) = nth_error s 0.
  Proof. intros ->. rewrite nth_error_app2 by lia. now rewrite Nat.sub_diag. Qed.
  Lemma split_here (pre s : str) : subject = pre ++ s -> firstn (List.length pre) subject = pre /\ skipn (List.length pre) subject = s.
  Proof.
    intros ->. split; [now rewrite firstn_app, Nat.sub_diag, firstn_all, app_nil_r|].
    now rewrite skipn_app, Nat.sub_diag, skipn_all.
  Qed.
  Lemma tries_one test a k g pre s : nth_error prog a = Some (IOne test k) -> subject = pre ++ s -> tries (one_char test pre s) a k g 0 pre s.
  Proof.
    intros Ha Hs sl Hl. unfold one_char. pose proof (here pre s Hs) as Hh. destruct s as [|c s]; cbn [nth_error] in Hh.
    - exists []. split; [reflexivity|]. split; [constructor|]. intros ls H. inversion H. cbn. eapply o_one_no; [exact Ha|]. intros c Hc. congruence.
    - destruct (test c) eqn:Ht.
      + exists [(mkway [c] s [], sl)]. split; [reflexivity|]. split.
        * constructor; [|constructor]. repeat split; cbn [fst snd w_caps w_mid w_rest]; auto. intros i. unfold cap_at. now destruct (Nat.ltb i g), (i - g)%nat.
        * intros ls H. inversion H as [|? l ? ? H1 H2]; subst. inversion H2; subst. cbn. rewrite app_nil_r.
          unfold goes_on in H1. cbn in H1. rewrite Nat.add_1_r in H1. eapply o_one; eauto.
      + exists []. split; [reflexivity|]. split; [constructor|]. intros ls H. inversion H. cbn. eapply o_one_no; [exact Ha|]. intros d Hd. congruence.
  Qed.
  Lemma tries_look (b : bool) h a k g pre s : nth_error prog a = Some (ILook h k) -> h pre s = b -> subject = pre ++ s ->
    tries (if b then nothing [] pre s else []) a k g 0 pre s.
  Proof.
    intros Ha Hh Hs sl Hl. destruct (split_here pre s Hs) as [H1 H2]. destruct b.
    - destruct (tries_nothing (@nil unit) k g pre s sl Hl) as (ts & Et & Ft & Ot). exists ts. split; [exact Et|]. split; [exact Ft|].
      intros ls H. eapply o_look; [exact Ha|now rewrite H1, H2|auto].
    - exists []. split; [reflexivity|]. split; [constructor|]. intros ls H. inversion H. cbn. eapply o_look_no; [exact Ha|now rewrite H1, H2].
  Qed.

  Lemma pair_set i sl j v : pair_at (set_slot j v sl) i =
    (if Nat.eqb j (2 * i) && Nat.ltb j (List.length sl) then v else nth (2 * i) sl None,
     if Nat.eqb j (S (2 * i)) && Nat.ltb j (List.length sl) then v else nth (S (2 * i)) sl None).
  Proof. unfold pair_at. now rewrite !nth_set_slot. Qed.

  (** A group around what was matched. *)
  Lemma updates_group g pre s mid rest c sl sl' : (2 * S g <= L)%nat -> subject = pre ++ s -> s = mid ++ rest ->
    List.length sl = L -> List.length sl' = L -> updates (S g) c (set_slot (2 * g) (Some (List.length pre)) sl) sl' ->
    updates g (Some mid :: c) sl (set_slot (S (2 * g)) (Some (List.length pre + List.length mid)%nat) sl').
  Proof.
    intros HL Hs H4 Hl H1 H3 i. specialize (H3 i). change (Some mid :: c) with ([Some mid] ++ c). rewrite cap_at_app.
    cbn [List.length]. rewrite Nat.add_1_r. destruct (Nat.eq_dec i g) as [->|Hi].
    - assert (Ec : cap_at [Some mid] g g = Some mid) by (unfold cap_at; now rewrite Nat.ltb_irrefl, Nat.sub_diag).
      rewrite Ec.
      assert (Ec' : cap_at c (S g) g = None) by (unfold cap_at; destruct (Nat.ltb_spec g (S g)); [easy|lia]).
      rewrite Ec', pair_set in H3. unfold pair_at in H3. pose proof (f_equal fst H3) as H5. cbn [fst] in H5. rewrite Hl, Nat.eqb_refl in H5. cbn [andb] in H5.
      destruct (Nat.ltb_spec (2 * g) L) as [_|]; [|lia].
      exists (List.length pre), (List.length pre + List.length mid)%nat. split.
      + rewrite pair_set, H1, H5. rewrite Nat.eqb_refl. destruct (Nat.eqb_spec (S (2 * g)) (2 * g)); [lia|]. cbn [andb].
        destruct (Nat.ltb_spec (S (2 * g)) L); [reflexivity|lia].
      + destruct (split_here pre s Hs) as [_ ->]. rewrite H4, Nat.add_comm, Nat.add_sub, firstn_app, Nat.sub_diag, firstn_all. apply app_nil_r.
    - assert (Ec : cap_at [Some mid] g i = None).
      { unfold cap_at. destruct (Nat.ltb_spec i g); [easy|]. apply nth_overflow. cbn. lia. }
      rewrite Ec. rewrite pair_set in H3.
      assert (Es : pair_at (set_slot (S (2 * g)) (Some (List.length pre + List.length mid)%nat) sl') i = pair_at sl' i).
      { rewrite pair_set. destruct (Nat.eqb_spec (S (2 * g)) (2 * i)); [lia|]. destruct (Nat.eqb_spec (S (2 * g)) (S (2 * i))); [lia|]. reflexivity. }
      destruct (cap_at c (S g) i); [now apply (reads_same sl')|]. rewrite Es.
      rewrite H3. destruct (Nat.eqb_spec (2 * g) (2 * i)); [lia|]. destruct (Nat.eqb_spec (2 * g) (S (2 * i))); [lia|]. reflexivity.
  Qed.

  Lemma compile_tries r : moving_loops digit space word r -> forall g, (2 * (g + List.length (groups r)) <= L)%nat ->
    compiles (compile digit space word r g) (ways r) g (List.length (groups r)).
  Proof.
    induction r as [|c| |s|l|min max greedy r IH|nm r IH|a IHa b IHb|a IHa b IHb]; intros Hml g HL k n Hp pre s0 Hs; cbn [compile fst snd] in Hp |- *.
    - apply (tries_nothing (@nil unit)).
    - apply placed_cons in Hp as [Hp _]. now apply tries_one.
    - apply placed_cons in Hp as [Hp _]. now apply tries_one.
    - apply placed_cons in Hp as [Hp _]. now apply tries_one.
    - apply placed_cons in Hp as [Hp _]. pose proof (tries_look (look_holds word l pre s0) _ _ _ g _ _ Hp eq_refl Hs) as H.
      destruct l; cbn [Match.ways look_holds groups List.length] in *; [now destruct pre|now destruct s0|exact H|].
      now destruct (word_boundary word pre s0).
    - cbn [groups] in HL |- *. destruct Hml as [Hml Hm]. cbn [Match.ways]. apply compiles_repetition; auto.
      intros E pre' s' w Hw E'. apply Hm with (p := pre') (q := w_rest w) (c := w_caps w) in E. apply E. rewrite <- E'. now apply ways_sound in Hw.
    - cbn [groups List.length] in HL |- *. cbn in Hml. cbn [Match.ways].
      destruct (compile digit space word r (S g) n (S (S n))) as [code e] eqn:E. cbn [fst snd] in Hp |- *.
      apply placed_cons in Hp as [Hp0 Hp]. apply placed_cons in Hp as [Hp1 Hp].
      specialize (IH Hml (S g) ltac:(lia) n (S (S n))). rewrite E in IH. cbn [fst snd] in IH. specialize (IH Hp pre s0 Hs).
      intros sl Hl. destruct (IH (set_slot (2 * g) (Some (List.length pre)) sl)) as (ts & <- & Ft & Ot); [now rewrite set_slot_length|].
      exists (map (fun t => (mkway (w_mid (fst t)) (w_rest (fst t)) (Some (w_mid (fst t)) :: w_caps (fst t)),
        set_slot (S (2 * g)) (Some (List.length pre + List.length (w_mid (fst t)))%nat) (snd t))) ts).
      split; [now rewrite !map_map|]. split.
      + apply Forall_map. eapply Forall_impl; [|exact Ft]. intros [w sl'] (H1 & H2 & H3 & H4). cbn [fst snd] in *.
        repeat split; cbn [fst snd w_caps w_mid w_rest]; [now rewrite set_slot_length|now rewrite <- H2| |exact H4].
        apply (updates_group g pre s0 (w_mid w) (w_rest w)); auto; lia.
      + intros ls H. eapply o_save; [exact Hp1|]. apply Ot. clear -H Hp0. revert ls H. induction ts as [|t ts IH]; intros l1 E1; inversion E1; subst; constructor; auto.
        match goal with H : goes_on _ _ _ _ |- _ => unfold goes_on in *; cbn [fst snd w_mid] in H end. eapply o_save; [exact Hp0|assumption].
    - cbn [groups] in HL |- *. rewrite app_length in HL |- *. destruct Hml as [Hma Hmb]. cbn [Match.ways].
      specialize (IHb Hmb (g + List.length (groups a))%nat ltac:(lia) k n).
      destruct (compile digit space word b (g + List.length (groups a)) k n) as [code e] eqn:E1.
      specialize (IHa Hma g ltac:(lia) e (n + List.length code)%nat).
      destruct (compile digit space word a g e (n + List.length code)%nat) as [code' e'] eqn:E2. cbn [fst snd] in *.
      apply placed_app in Hp as [Hp1 Hp2].
      eapply tries_followed; [intros; eapply updates_app; eassumption|auto|].
      intros w _ Hw. apply IHb; auto. now apply mid_subject with (s := s0).
    - cbn [groups] in HL |- *. rewrite app_length in HL |- *. destruct Hml as [Hma Hmb]. cbn [Match.ways].
      specialize (IHa Hma g ltac:(lia) k (S n)).
      destruct (compile digit space word a g k (S n)) as [code e] eqn:E1.
      specialize (IHb Hmb (g + List.length (groups a))%nat ltac:(lia) k (S n + List.length code)%nat).
      destruct (compile digit space word b (g + List.length (groups a))%nat k (S n + List.length code)%nat) as [code' e'] eqn:E2. cbn [fst snd] in *.
      apply placed_cons in Hp as [Hp0 Hp]. apply placed_app in Hp as [Hp1 Hp2].
      eapply tries_split; [exact Hp0| |].
      + apply (tries_recap (fun c => c ++ no_captures b) _ _ _ g (List.length (groups a))); [|auto].
        intros c sl sl' Hc Hu. apply updates_app with (sl1 := sl'); auto; [apply map_length|apply updates_none].
      + apply (tries_recap (fun c => no_captures a ++ c) _ _ _ (g + List.length (groups a)) (List.length (groups b))); [|auto].
        intros c sl sl' Hc Hu. eapply updates_app with (sl1 := sl); auto; [apply map_length|apply updates_none].
  Qed.
End Code.
