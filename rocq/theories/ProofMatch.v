(** The search finds a match iff there is one, and what it finds is one. *)
From Coq Require Import Lia PeanoNat.
From Verif Require Export Match ProofMeaning.

Section Ways.
  Context (digit space word : char -> bool).
  Notation rm := (rm digit space word).
  Notation rms := (rms digit space word).
  Notation ways := (ways digit space word).

  Lemma in_followed join pre next ws v : In v (followed join pre next ws) <->
    exists w u, In w ws /\ In u (next (pre ++ w_mid w) (w_rest w)) /\
      v = mkway (w_mid w ++ w_mid u) (w_rest u) (join (w_caps w) (w_caps u)).
  Proof.
    unfold followed. rewrite in_flat_map. split.
    - intros (w & Hw & (u & <- & Hu)%in_map_iff). eauto.
    - intros (w & u & Hw & Hu & ->). exists w. split; [exact Hw|]. now apply (in_map (fun v => mkway (w_mid w ++ w_mid v) (w_rest v) (join (w_caps w) (w_caps v)))).
  Qed.

  (** ** Soundness *)
  Definition sound (m : matcher) (P : str -> str -> str -> list (option str) -> Prop) : Prop :=
    forall pre s w, In w (m pre s) -> s = w_mid w ++ w_rest w /\ P pre (w_mid w) (w_rest w) (w_caps w).
  Lemma sound_one_char test (P : str -> str -> str -> list (option str) -> Prop) :
    (forall c p q, test c = true -> P p [c] q []) -> sound (one_char test) P.
  Proof.
    intros H pre [|c s] w; cbn; [easy|]. destruct (test c) eqn:E; [|easy]. intros [<-|[]]. cbn. auto.
  Qed.
  Definition within (budget : option N) (k : nat) : Prop :=
    match budget with Some n => N.of_nat k <= n | None => True end.
  Definition some_rms (r : re) (budget : option N) p m q c : Prop := exists k, within budget k /\ rms k r p m q c.
  Definition some_rms_from (n : nat) (r : re) (budget : option N) p m q c : Prop := exists k, (n <= k)%nat /\ within budget k /\ rms k r p m q c.
  Lemma sound_nothing r budget : sound (nothing (no_captures r)) (some_rms r budget).
  Proof. intros pre s w [<-|[]]. cbn. split; [reflexivity|]. exists O. split; [destruct budget; cbn; lia|constructor]. Qed.
  (** One iteration [w], then [next]. *)
  Lemma sound_then r pre w next n budget s : s = w_mid w ++ w_rest w -> rm r pre (w_mid w) (w_rest w) (w_caps w) ->
    sound next (some_rms_from n r budget) -> forall v, In v (followed merge pre next [w]) ->
    s = w_mid v ++ w_rest v /\ some_rms_from (S n) r (option_map N.succ budget) pre (w_mid v) (w_rest v) (w_caps v).
  Proof.
    intros -> Hr Hn v Hv. apply in_followed in Hv as (w2 & u & [<-|[]] & Hu & ->).
    apply Hn in Hu as [Eu (k & Hk & Hk' & Hu)]. cbn [w_mid w_rest w_caps]. rewrite Eu in Hr |- *. split; [now rewrite app_assoc|].
    exists (S k). split; [lia|]. split; [destruct budget; cbn in *; lia|]. constructor; assumption.
  Qed.
  Lemma followed_one join pre next ws v : In v (followed join pre next ws) -> exists w, In w ws /\ In v (followed join pre next [w]).
  Proof. intros (w & u & Hw & Hu & ->)%in_followed. exists w. split; [exact Hw|]. apply in_followed. exists w, u. cbn. auto. Qed.
  Lemma some_from r budget p m q c : some_rms r budget p m q c <-> some_rms_from 0 r budget p m q c.
  Proof. split; [intros (k & H1 & H2); exists k; split; [lia|auto]|intros (k & _ & H); now exists k]. Qed.
  Lemma sound_at_most body r greedy k : sound body (rm r) ->
    sound (at_most body (no_captures r) greedy k) (some_rms r (Some (N.of_nat k))).
  Proof.
    intros Hb. induction k as [|k IH]; intros pre s w Hw; [now apply (sound_nothing r (Some 0))|].
    assert (Hw' : In w (nothing (no_captures r) pre s) \/ In w (followed merge pre (at_most body (no_captures r) greedy k) (body pre s)))
      by (cbn [at_most] in Hw; destruct greedy; apply in_app_or in Hw; tauto).
    destruct Hw' as [Hw'|Hw']; [now apply sound_nothing|]. apply followed_one in Hw' as (w1 & Hw1 & Hw'). apply Hb in Hw1 as [E Hr].
    destruct (sound_then r pre w1 _ 0 (Some (N.of_nat k)) s E Hr ltac:(intros ? ? ? H; apply IH in H; now rewrite <- some_from) w Hw') as [H1 (j & _ & H2 & H3)].
    split; [exact H1|]. exists j. split; [|exact H3]. cbn in *. lia.
  Qed.
  Lemma sound_further body r greedy fuel : sound body (rm r) -> sound (further body (no_captures r) greedy fuel) (some_rms r None).
  Proof.
    intros Hb. induction fuel as [|fuel IH]; intros pre s w Hw; [now apply sound_nothing|].
    assert (Hw' : In w (nothing (no_captures r) pre s) \/
      In w (followed merge pre (further body (no_captures r) greedy fuel) (filter (fun w => match w_mid w with [] => false | _ => true end) (body pre s))))
      by (cbn [further] in Hw; destruct greedy; apply in_app_or in Hw; tauto).
    destruct Hw' as [Hw'|Hw']; [now apply sound_nothing|]. apply followed_one in Hw' as (w1 & Hw1 & Hw'). apply filter_In in Hw1 as [Hw1 _].
    apply Hb in Hw1 as [E Hr].
    destruct (sound_then r pre w1 _ 0 None s E Hr ltac:(intros ? ? ? H; apply IH in H; now rewrite <- some_from) w Hw') as [H1 (j & _ & H2 & H3)].
    split; [exact H1|]. now exists j.
  Qed.
  Lemma sound_at_least_one body r greedy : sound body (rm r) -> sound (at_least_one body (no_captures r) greedy) (some_rms_from 1 r None).
  Proof.
    intros Hb pre s w Hw. unfold at_least_one in Hw. apply in_flat_map in Hw as (w1 & Hw1 & Hw). apply Hb in Hw1 as [E Hr].
    destruct (w_mid w1) as [|x y] eqn:Ew; rewrite <- Ew in E, Hr.
    - apply (sound_then r pre w1 (nothing (no_captures r)) 0 None s E Hr); [|exact Hw].
      intros ? ? ? H. apply (sound_nothing r None) in H. now rewrite <- some_from.
    - apply (sound_then r pre w1 (further body (no_captures r) greedy (S (List.length s))) 0 None s E Hr); [|exact Hw].
      intros ? ? ? H. apply (sound_further body r greedy _ Hb) in H. now rewrite <- some_from.
  Qed.
  Lemma sound_required_ways body next r (P : nat -> Prop) n : sound body (rm r) ->
    sound next (fun p m q c => exists k, P (n + k)%nat /\ rms k r p m q c) ->
    sound (required body next n) (fun p m q c => exists k, P k /\ rms k r p m q c).
  Proof.
    intros Hb. revert P. induction n as [|n IH]; intros P Hn; [exact Hn|].
    intros pre s w Hw. cbn [required] in Hw. apply in_followed in Hw as (w1 & u & Hw1 & Hu & ->).
    apply Hb in Hw1 as [-> Hr].
    apply (IH (fun k => P (S k))) in Hu as [Eu (k & Hk & Hu)].
    - cbn [w_mid w_rest w_caps]. rewrite Eu in Hr |- *. split; [now rewrite app_assoc|]. exists (S k). split; [exact Hk|].
      now constructor.
    - exact Hn.
  Qed.
  Lemma sound_repeated body r min max greedy : sound body (rm r) ->
    sound (repeated body (no_captures r) min max greedy) (rm (RRep min max greedy r)).
  Proof.
    intros Hb pre s w Hw. unfold repeated in Hw.
    assert (H : s = w_mid w ++ w_rest w /\ exists k, (min <= N.of_nat k /\ within max k) /\ rms k r pre (w_mid w) (w_rest w) (w_caps w)).
    - destruct max as [n|].
      + destruct (N.ltb_spec n min) as [|Hle]; [easy|].
        eapply (sound_required_ways body _ r (fun k => min <= N.of_nat k /\ within (Some n) k)) in Hw; [exact Hw|exact Hb|].
        intros pre' s' w' Hw'. apply sound_at_most with (r := r) in Hw' as [-> (k & Hk & Hw')]; [|exact Hb].
        split; [reflexivity|]. exists k. split; [|exact Hw']. cbn in *. lia.
      + destruct (N.to_nat min) as [|m] eqn:Em.
        * assert (Hw' : In w (nothing (no_captures r) pre s) \/ In w (at_least_one body (no_captures r) greedy pre s))
            by (destruct greedy; apply in_app_or in Hw; tauto).
          destruct Hw' as [Hw'|Hw'].
          -- apply (sound_nothing r None) in Hw' as [-> (k & Hk & Hw')]. split; [reflexivity|]. exists k. split; [|exact Hw']. split; [lia|exact I].
          -- apply (sound_at_least_one body r greedy Hb) in Hw' as [-> (k & Hk & _ & Hw')]. split; [reflexivity|]. exists k. split; [|exact Hw']. split; [lia|exact I].
        * eapply (sound_required_ways body _ r (fun k => min <= N.of_nat k /\ within None k)) in Hw; [exact Hw|exact Hb|].
          intros pre' s' w' Hw'. apply (sound_at_least_one body r greedy Hb) in Hw' as [-> (k & Hk & _ & Hw')].
          split; [reflexivity|]. exists k. split; [|exact Hw']. split; [lia|exact I].
    - destruct H as [-> (k & [Hk1 Hk2] & H)]. split; [reflexivity|]. econstructor; eassumption.
  Qed.
  Lemma ways_sound r : sound (ways r) (rm r).
  Proof.
    induction r as [|a| |k|[]|min max g r IH|n r IH|a IHa b IHb|a IHa b IHb]; cbn [Match.ways].
    - intros pre s w [<-|[]]. cbn. split; [reflexivity|constructor].
    - apply sound_one_char. intros c p q E. apply N.eqb_eq in E as <-. constructor.
    - apply sound_one_char. intros c p q E. constructor. apply negb_true_iff, N.eqb_neq in E. exact E.
    - apply sound_one_char. intros c p q E. now constructor.
    - intros [|] s w; [|easy]. intros [<-|[]]. cbn. split; [reflexivity|constructor].
    - intros pre [|] w; [|easy]. intros [<-|[]]. cbn. split; [reflexivity|constructor].
    - intros pre s w. destruct (word_boundary word pre s) eqn:E; [|easy]. intros [<-|[]]. cbn. split; [reflexivity|now constructor].
    - intros pre s w. destruct (word_boundary word pre s) eqn:E; [easy|]. intros [<-|[]]. cbn. split; [reflexivity|now constructor].
    - apply sound_repeated, IH.
    - intros pre s w (v & <- & Hv)%in_map_iff. apply IH in Hv as [-> Hv]. cbn. split; [reflexivity|now constructor].
    - intros pre s w (v & u & Hv & Hu & ->)%in_followed. apply IHa in Hv as [-> Hv]. apply IHb in Hu as [E Hu].
      cbn. rewrite E in Hv |- *. split; [now rewrite app_assoc|now constructor].
    - intros pre s w [(v & <- & Hv)%in_map_iff|(v & <- & Hv)%in_map_iff]%in_app_or.
      + apply IHa in Hv as [-> Hv]. cbn. split; [reflexivity|now constructor].
      + apply IHb in Hv as [-> Hv]. cbn. split; [reflexivity|now constructor].
  Qed.

  (** ** Completeness *)
  Definition complete (m : matcher) (P : str -> str -> str -> list (option str) -> Prop) : Prop :=
    forall pre mid post c, P pre mid post c -> exists c', In (mkway mid post c') (m pre (mid ++ post)).
  Lemma followed_in pre next ws x y post cx cy : In (mkway x (y ++ post) cx) ws -> In (mkway y post cy) (next (pre ++ x) (y ++ post)) ->
    In (mkway (x ++ y) post (merge cx cy)) (followed merge pre next ws).
  Proof. intros H1 H2. apply in_followed. do 2 eexists. split; [exact H1|]. split; [exact H2|]. reflexivity. Qed.
  Lemma at_most_complete body r greedy : complete body (rm r) -> forall n pre mid post k c,
    (k <= n)%nat -> rms k r pre mid post c -> exists c', In (mkway mid post c') (at_most body (no_captures r) greedy n pre (mid ++ post)).
  Proof.
    intros Hb n. induction n as [|n IH]; intros pre mid post k c Hk H.
    - replace k with O in H by lia. apply rms_zero_inv in H as [-> ->]. eexists. now left.
    - destruct k as [|k].
      + apply rms_zero_inv in H as [-> ->]. exists (no_captures r). cbn [at_most]. destruct greedy; apply in_app_iff; [right|left]; now left.
      + apply rms_succ_inv in H as (x & y & cx & cy & -> & -> & H1 & H2). apply Hb in H1 as (cx' & H1).
        apply IH in H2 as (cy' & H2); [|lia]. exists (merge cx' cy').
        assert (Hi : In (mkway (x ++ y) post (merge cx' cy')) (followed merge pre (at_most body (no_captures r) greedy n) (body pre ((x ++ y) ++ post)))).
        { rewrite <- app_assoc. now apply followed_in. }
        cbn [at_most]. destruct greedy; apply in_app_iff; auto.
  Qed.
  Lemma further_complete body r greedy : complete body (rm r) -> forall fuel pre mid post k c,
    (List.length (mid ++ post) < fuel)%nat -> rms k r pre mid post c ->
    exists c', In (mkway mid post c') (further body (no_captures r) greedy fuel pre (mid ++ post)).
  Proof.
    intros Hb fuel. induction fuel as [|fuel IHf]; intros pre mid post k c Hl; [lia|].
    revert c. induction k as [|k IHk]; intros c H.
    - apply rms_zero_inv in H as [-> ->]. exists (no_captures r). cbn [further]. destruct greedy; apply in_app_iff; [right|left]; now left.
    - apply rms_succ_inv in H as (x & y & cx & cy & -> & -> & H1 & H2).
      destruct x as [|a x]; [rewrite app_nil_r in H2; cbn [app] in *; now apply IHk with cy|].
      apply Hb in H1 as (cx' & H1). destruct (IHf (pre ++ a :: x) y post k cy) as (cy' & H3); [rewrite !app_length in *; cbn in *; lia|exact H2|].
      exists (merge cx' cy').
      assert (Hi : In (mkway ((a :: x) ++ y) post (merge cx' cy')) (followed merge pre (further body (no_captures r) greedy fuel)
        (filter (fun w => match w_mid w with [] => false | _ => true end) (body pre (((a :: x) ++ y) ++ post))))).
      { rewrite <- app_assoc. apply followed_in; [|exact H3]. apply filter_In. now split. }
      cbn [further]. destruct greedy; apply in_app_iff; auto.
  Qed.
  Lemma at_least_one_complete body r greedy : complete body (rm r) -> forall k, (1 <= k)%nat ->
    complete (at_least_one body (no_captures r) greedy) (rms k r).
  Proof.
    intros Hb k. induction k as [|k IH]; intros Hk pre mid post c H; [lia|].
    apply rms_succ_inv in H as (x & y & cx & cy & -> & -> & H1 & H2). destruct x as [|a x].
    - rewrite app_nil_r in H2. cbn [app] in *. destruct k as [|k]; [|now apply (IH ltac:(lia) pre y post cy)].
      apply rms_zero_inv in H2 as [-> ->]. apply Hb in H1 as (cx' & H1). exists (merge cx' (no_captures r)).
      unfold at_least_one. apply in_flat_map. eexists. split; [exact H1|]. cbn [w_mid]. apply (followed_in pre _ _ [] [] post); now left.
    - apply Hb in H1 as (cx' & H1).
      destruct (further_complete body r greedy Hb (S (List.length (((a :: x) ++ y) ++ post))) (pre ++ a :: x) y post k cy) as (cy' & H3);
        [rewrite !app_length; cbn; lia|exact H2|].
      exists (merge cx' cy'). unfold at_least_one. apply in_flat_map. exists (mkway (a :: x) (y ++ post) cx'). split; [now rewrite <- app_assoc|].
      cbn [w_mid]. apply (followed_in pre _ _ (a :: x) y post); [now left|exact H3].
  Qed.
  Lemma required_complete body next r n : complete body (rm r) -> forall P : nat -> Prop,
    (forall k, P (n + k)%nat -> complete next (rms k r)) ->
    forall k, P k -> (n <= k)%nat -> complete (required body next n) (rms k r).
  Proof.
    intros Hb. induction n as [|n IH]; intros P Hn k Hk Hle; [now apply Hn|].
    destruct k as [|k]; [lia|]. intros pre mid post c (x & y & cx & cy & -> & -> & H1 & H2)%rms_succ_inv.
    apply Hb in H1 as (cx' & H1).
    eapply (IH (fun k => P (S k))) in H2 as (cy' & H2); [|intros j Hj; now apply Hn|exact Hk|lia].
    eexists. cbn [required]. apply in_followed. exists (mkway x (y ++ post) cx'), (mkway y post cy').
    rewrite <- app_assoc. split; [exact H1|]. split; [exact H2|reflexivity].
  Qed.
  Lemma repeated_complete body r min max greedy : complete body (rm r) ->
    complete (repeated body (no_captures r) min max greedy) (rm (RRep min max greedy r)).
  Proof.
    intros Hb pre mid post c (k & Hk1 & Hk2 & H)%rm_rep_inv. unfold repeated. destruct max as [n|].
    - replace (n <? min) with false by (symmetry; apply N.ltb_ge; lia).
      revert pre mid post c H. apply (required_complete _ _ _ (N.to_nat min) Hb (within (Some n))); [|exact Hk2|lia].
      intros j Hj pre mid post c H. eapply at_most_complete; try eassumption. cbn in Hj. lia.
    - destruct (N.to_nat min) as [|m] eqn:Em.
      + destruct k as [|k].
        * apply rms_zero_inv in H as [-> ->]. exists (no_captures r). destruct greedy; apply in_app_iff; [right|left]; now left.
        * apply (at_least_one_complete body r greedy Hb) in H as (c' & H); [|lia]. exists c'. destruct greedy; apply in_app_iff; auto.
      + revert pre mid post c H. apply (required_complete _ _ _ m Hb (fun k => S m <= k)%nat); [|lia|lia].
        intros j Hj. apply at_least_one_complete; [exact Hb|lia].
  Qed.
  Lemma ways_complete r : complete (ways r) (rm r).
  Proof.
    induction r as [|a| |k|l|min max g r IH|n r IH|a IHa b IHb|a IHa b IHb]; intros pre mid post c H.
    - inversion H; subst. eexists. now left.
    - inversion H; subst. cbn. rewrite N.eqb_refl. eexists. now left.
    - inversion H; subst. cbn. destruct (N.eqb_spec c0 10); [easy|]. eexists. now left.
    - inversion H; subst. cbn. match goal with E : class_has _ _ _ _ _ = true |- _ => rewrite E end. eexists. now left.
    - inversion H; subst; cbn; try match goal with E : word_boundary _ _ _ = _ |- _ => rewrite E end; eexists; now left.
    - eapply repeated_complete; eassumption.
    - apply rm_cap_inv in H as (d & -> & H). apply IH in H as (c' & H). exists (Some mid :: c').
      cbn. apply in_map_iff. exists (mkway mid post c'). auto.
    - apply rm_cat_inv in H as (x & y & ca & cb & -> & -> & H1 & H2).
      apply IHa in H1 as (ca' & H1). apply IHb in H2 as (cb' & H2).
      exists (ca' ++ cb'). cbn. apply in_followed. exists (mkway x (y ++ post) ca'), (mkway y post cb').
      rewrite <- app_assoc. repeat split; assumption.
    - apply rm_alt_inv in H as [(d & -> & H)|(d & -> & H)].
      + apply IHa in H as (c' & H). eexists. cbn. apply in_or_app. left. apply in_map_iff.
        exists (mkway mid post c'). split; [reflexivity|exact H].
      + apply IHb in H as (c' & H). eexists. cbn. apply in_or_app. right. apply in_map_iff.
        exists (mkway mid post c'). split; [reflexivity|exact H].
  Qed.

  (** ** The search *)
  Lemma search_some r pre s p w : search digit space word r pre s = Some (p, w) ->
    exists q, p = pre ++ q /\ s = q ++ w_mid w ++ w_rest w /\ rm r p (w_mid w) (w_rest w) (w_caps w) /\
      (exists l, ways r p (w_mid w ++ w_rest w) = w :: l) /\
      forall q1 q2, q = q1 ++ q2 -> q2 <> [] -> ways r (pre ++ q1) (q2 ++ w_mid w ++ w_rest w) = [].
  Proof.
    revert pre. induction s as [|c s IH]; intros pre; cbn [search];
      (destruct (ways r pre _) as [|v l] eqn:E;
       [|intros H; injection H as <- <-; exists []; rewrite app_nil_r;
         destruct (ways_sound r pre _ v ltac:(rewrite E; now left)) as [E1 E2];
         repeat split; [exact E1|exact E2|rewrite <- E1; eauto|];
         intros [|] [|] Hq Hq2; try discriminate Hq; easy]).
    - discriminate.
    - intros H. apply IH in H as (q & -> & -> & H1 & H2 & H3). exists (c :: q).
      change (c :: q) with ([c] ++ q). rewrite app_assoc. repeat split; [exact H1|exact H2|].
      intros [|d q1] q2 Hq Hq2.
      + rewrite app_nil_r. cbn in Hq. subst. exact E.
      + injection Hq as <- ->. specialize (H3 q1 q2 eq_refl Hq2). rewrite <- app_assoc in H3. exact H3.
  Qed.
  Lemma search_none r pre s : search digit space word r pre s = None ->
    forall q m post c, s = q ++ m ++ post -> ~ rm r (pre ++ q) m post c.
  Proof.
    revert pre. induction s as [|c s IH]; intros pre; cbn [search];
      (destruct (ways r pre _) as [|v l] eqn:E; [|discriminate]); intros Hs q m post cc Eq H.
    - symmetry in Eq. apply app_eq_nil in Eq as [-> [-> ->]%app_eq_nil]. rewrite app_nil_r in H.
      apply ways_complete in H as (c' & H). cbn in H. rewrite E in H. easy.
    - destruct q as [|d q].
      + cbn in Eq. rewrite Eq in E. rewrite app_nil_r in H. apply ways_complete in H as (c' & H). rewrite E in H. easy.
      + injection Eq as <- ->. eapply IH; [exact Hs|reflexivity|]. rewrite <- app_assoc. exact H.
  Qed.
  Lemma matches_iff r s : matches digit space word r s = true <-> is_match digit space word r s.
  Proof.
    unfold matches. destruct (search digit space word r [] s) as [[p w]|] eqn:E.
    - split; [|reflexivity]. intros _. apply search_some in E as (q & -> & E & H & _).
      exists q, (w_mid w), (w_rest w), (w_caps w). split; [exact E|exact H].
    - split; [discriminate|]. intros (p & m & q & c & -> & H). exfalso.
      eapply search_none; [exact E|reflexivity|exact H].
  Qed.
End Ways.
