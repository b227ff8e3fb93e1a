From Coq Require Import Lia PeanoNat.
From Verif Require Export Captures SpecCaptures ProofMatch ProofParams2.
Open Scope N_scope.

(** ** Decimal notation is unique *)
Lemma decimal_value_snoc t c : decimal_value (t ++ [c]) = decimal_value t * 10 + (c - c_ "0").
Proof. unfold decimal_value, digit_values. rewrite map_app, fold_left_app. reflexivity. Qed.
Lemma decimal_value_pos c t : c <> c_ "0" -> Forall ascii_digit (c :: t) -> 0 < decimal_value (c :: t).
Proof.
  intros Hc. revert c Hc. induction t as [|d t IH] using rev_ind; intros c Hc H.
  - inversion_clear H. unfold ascii_digit in *. cbn [decimal_value digit_values map fold_left]. unfold decimal_value. cbn [digit_values map fold_left]. lia.
  - change (c :: t ++ [d]) with ((c :: t) ++ [d]) in *. apply Forall_app in H as [H _]. rewrite decimal_value_snoc.
    specialize (IH c Hc H). lia.
Qed.
Definition no_zero (t : str) : Prop := forall u, t <> c_ "0" :: u.
Lemma decimal_inj a b : Forall ascii_digit a -> Forall ascii_digit b -> no_zero a -> no_zero b ->
  decimal_value a = decimal_value b -> a = b.
Proof.
  revert b. induction a as [|c a IH] using rev_ind; intros b Ha Hb Za Zb E.
  - destruct b as [|d b]; [reflexivity|]. assert (Hd : d <> c_ "0") by (intros ->; exact (Zb b eq_refl)).
    pose proof (decimal_value_pos d b Hd Hb) as H. rewrite <- E in H. change (decimal_value []) with 0 in H. lia.
  - destruct b as [|d b _] using rev_ind.
    + destruct a as [|x a]; cbn [app] in *.
      * assert (Hd : c <> c_ "0") by (intros ->; exact (Za [] eq_refl)).
        pose proof (decimal_value_pos c [] Hd Ha) as H. rewrite E in H. change (decimal_value []) with 0 in H. lia.
      * assert (Hd : x <> c_ "0") by (intros ->; exact (Za _ eq_refl)).
        pose proof (decimal_value_pos x _ Hd Ha) as H. rewrite E in H. change (decimal_value []) with 0 in H. lia.
    + apply Forall_app in Ha as [Ha Hc]. apply Forall_app in Hb as [Hb Hd]. inversion_clear Hc. inversion_clear Hd.
      rewrite !decimal_value_snoc in E. unfold ascii_digit in *. change (c_ "0") with 48 in *. change (c_ "9") with 57 in *.
      assert (decimal_value a = decimal_value b /\ c = d) as [E1 ->] by lia.
      rewrite (IH b); [reflexivity|assumption..| | |exact E1].
      * intros u ->. exact (Za (u ++ [d]) eq_refl).
      * intros u ->. exact (Zb (u ++ [d]) eq_refl).
Qed.
Lemma decimal_unique n t t' : decimal n t -> decimal n t' -> t = t'.
Proof.
  assert (H0 : forall t, Forall ascii_digit t -> t <> [] -> no_zero t -> decimal_value t <> 0).
  { intros [|c u] H Hn Hz; [easy|]. pose proof (decimal_value_pos c u ltac:(intros ->; exact (Hz u eq_refl)) H). lia. }
  intros (N1 & D1 & V1 & [->|Z1]) (N2 & D2 & V2 & [->|Z2]).
  - reflexivity.
  - exfalso. apply (H0 t' D2 N2 Z2). rewrite V2, <- V1. reflexivity.
  - exfalso. apply (H0 t D1 N1 Z1). rewrite V1, <- V2. reflexivity.
  - apply decimal_inj; try assumption. congruence.
Qed.
Lemma decimal_dec n t : decimal n t -> t = dec n.
Proof. intros H. apply (decimal_unique n); [exact H|apply dec_decimal]. Qed.
Lemma group_named_name id k n : group_named id k n <-> n = group_name id k.
Proof.
  split; [|intros ->; apply group_name_named]. intros (a & b & ->%decimal_dec & ->%decimal_dec & ->). reflexivity.
Qed.

(** ** Values per parameter *)
Section Reads.
  Context {I : Type} (text : I -> str) (param : parameter I -> str -> str -> str -> list (option str) -> Prop).
  Lemma means_readings e pre s post v :
    means_in text param e pre s post v <-> exists vs, readings text param e pre s post vs /\ v = List.concat vs.
  Proof.
    split.
    - induction 1 as [pre post|x e pre s t post v w Hx _ (vs & Hvs & ->)].
      + exists []. split; [constructor|reflexivity].
      + destruct x as [a|o|p|u|u]; cbn in Hx.
        1,2,4,5: destruct Hx as [Hx ->]; exists vs; split; [|reflexivity]; apply readings_other; [now split|exact Hvs].
        exists (v :: vs). split; [|reflexivity]. now constructor.
    - intros (vs & H & ->). induction H as [pre post|p e pre s t post v vs Hp _ IH|x e pre s t post vs Hx _ IH].
      + constructor.
      + cbn [List.concat]. constructor; [exact Hp|exact IH].
      + change (List.concat vs) with ([] ++ List.concat vs). constructor; [|exact IH].
        destruct x; cbn in *; tauto.
  Qed.
  Lemma readings_parameters e pre s post vs : readings text param e pre s post vs ->
    Forall2 (fun p v => exists a b c, param p a b c v) (parameters e) vs.
  Proof.
    induction 1 as [pre post|p e pre s t post v vs Hp _ IH|x e pre s t post vs Hx _ IH].
    - constructor.
    - cbn [parameters flat_map app]. constructor; [eauto|exact IH].
    - destruct x; [exact IH|exact IH|easy|exact IH|exact IH].
  Qed.
End Reads.

(** ** Lookup by name *)
Lemma named_entry_app a b ca cb n : List.length a = List.length ca ->
  ~ In n (names_of a) -> named_entry (a ++ b) (ca ++ cb) n = named_entry b cb n.
Proof.
  revert ca. induction a as [|[m|] a IH]; intros [|x ca] Hl H; try discriminate Hl; cbn [app named_entry]; [reflexivity|..].
  - cbn in H. destruct (str_eqb m n) eqn:E; [apply str_eqb_eq in E; subst; tauto|]. apply IH; [now injection Hl|tauto].
  - apply IH; [now injection Hl|exact H].
Qed.
Lemma named_entry_absent a ca n : ~ In n (names_of a) -> named_entry a ca n = None.
Proof.
  revert ca. induction a as [|[m|] a IH]; intros [|x ca] H; cbn [named_entry]; try reflexivity.
  - cbn in H. destruct (str_eqb m n) eqn:E; [apply str_eqb_eq in E; subst; tauto|]. apply IH. tauto.
  - apply IH, H.
Qed.
Lemma names_app a b : names_of (a ++ b) = names_of a ++ names_of b.
Proof. unfold names_of. apply flat_map_app. Qed.
Lemma named_entry_left a b ca cb n : List.length a = List.length ca -> ~ In n (names_of b) ->
  named_entry (a ++ b) (ca ++ cb) n = named_entry a ca n.
Proof.
  revert ca. induction a as [|[m|] a IH]; intros [|x ca] Hl H; try discriminate Hl; cbn [app named_entry].
  - destruct b, cb; try reflexivity; now apply named_entry_absent.
  - destruct (str_eqb m n); [reflexivity|]. apply IH; [now injection Hl|exact H].
  - apply IH; [now injection Hl|exact H].
Qed.
(** The names of a renamed parameter, from [k] on. *)
Inductive numbered (id : N) : N -> list (option str) -> Prop :=
| numbered_nil k : numbered id k []
| numbered_cons k l : numbered id (k + 1) l -> numbered id k (Some (group_name id k) :: l).
Lemma numbered_entry id l j : numbered id j l -> forall c k, List.length l = List.length c ->
  named_entry l c (group_name id (j + N.of_nat k)) = capture_get c k.
Proof.
  induction 1 as [j|j l _ IH]; intros [|x c] k Hl; try discriminate Hl; cbn [named_entry].
  - now destruct k.
  - destruct (str_eqb _ _) eqn:E.
    + apply str_eqb_eq, group_name_inj in E as [_ E]. destruct k; [reflexivity|lia].
    + destruct k as [|k].
      * exfalso. rewrite N.add_0_r in E. assert (str_eqb (group_name id j) (group_name id j) = true) by now apply str_eqb_eq. congruence.
      * replace (j + N.of_nat (S k)) with (j + 1 + N.of_nat k) by lia. rewrite IH by now injection Hl. reflexivity.
Qed.
Lemma numbered_names id l j : numbered id j l -> forall n, In n (names_of l) -> exists k, n = group_name id k.
Proof. induction 1 as [|j l _ IH]; cbn; intros n; [easy|]. intros [<-|H]; eauto. Qed.

Lemma nth_count_from n k i x : nth_error (count_from n k) i = Some x -> (i < k)%nat /\ x = n + N.of_nat i.
Proof.
  revert n i. induction k as [|k IH]; intros n [|i]; cbn [count_from nth_error]; try discriminate.
  - intros [= <-]. lia.
  - intros H%IH. lia.
Qed.
Section Named.
  Context (digits spaces words : ranges) (get : provider span).
  Notation type := (custom_type digits spaces words frag get).
  Definition labelled (p : parameter span) (g : list (option str)) : Prop :=
    has_names frag get p /\ numbered (par_id p) 0 g \/ ~ has_names frag get p /\ g = [None].
  Lemma labelled_groups p g : custom_valid frag get flat p -> custom_groups frag get p g -> labelled p g.
  Proof.
    unfold custom_valid, custom_groups, labelled, has_names. destruct (get (par_input p)) as [t|].
    - intros (r & Hr & Hf) (r' & Hr' & Hg). assert (r' = r) as -> by congruence. destruct (has_outer r) eqn:Ho.
      + left. split; [eauto|]. pose proof (flat_marks r Hf) as Hm. clear - Hg Hm. induction Hg.
        * constructor.
        * apply group_named_name in H as ->. constructor. apply IHHg. now inversion Hm.
        * inversion_clear Hm. discriminate.
      + right. split; [intros (r' & H & Ho'); congruence|].
        assert (E : groups r = []).
        { rewrite <- marks_groups. unfold has_outer in Ho. pose proof (flat_marks r Hf) as Hm.
          destruct (marks r) as [|[n b] l]; [reflexivity|]. inversion_clear Hm. cbn in *. subst b. discriminate Ho. }
        now rewrite Hg, E.
    - intros _. unfold parameter_groups. destruct (list_eq_dec _ _ _) as [E|E].
      + intros (n0 & n1 & ->%group_named_name & ->%group_named_name & ->). left. split; [exact E|]. repeat constructor.
      + intros ->. right. auto.
  Qed.
  Lemma typed_groups p g a b c v : custom_groups frag get p g -> type p a b c v -> List.length g = List.length v.
  Proof.
    unfold custom_groups, custom_type. destruct (get (par_input p)) as [t|].
    - intros (r & Hr & Hg) (r' & d & Hr' & Hd & ->). assert (r' = r) as -> by congruence. apply rm_caps in Hd.
      destruct (has_outer r).
      + rewrite Hd, <- marks_length. clear - Hg. induction Hg; cbn; congruence.
      + rewrite Hg. cbn. now rewrite Hd.
    - unfold parameter_groups. destruct (list_eq_dec _ _ _) as [E|E].
      + rewrite E. intros (n0 & n1 & _ & _ & ->) H. inversion H; reflexivity.
      + intros -> H. remember (frag (par_input p)) as f eqn:Ef. destruct H; try reflexivity; now destruct E.
  Qed.
  Lemma labelled_names p g n : labelled p g -> In n (names_of g) -> exists k, n = group_name (par_id p) k.
  Proof. intros [[_ H]|[_ ->]] Hn; [eapply numbered_names; eassumption|easy]. Qed.
  Lemma lookup ps : NoDup (map par_id ps) -> forall l, Forall2 labelled ps l -> forall vs, Forall2 (fun g v => List.length g = List.length v) l vs ->
    forall i p v k, nth_error ps i = Some p -> nth_error vs i = Some v ->
      (has_names frag get p -> named_entry (List.concat l) (List.concat vs) (group_name (par_id p) (N.of_nat k)) = capture_get v k) /\
      (~ has_names frag get p -> named_entry (List.concat l) (List.concat vs) (group_name (par_id p) (N.of_nat k)) = None).
  Proof.
    intros Hn l Hl vs Hvs i p v k Hp Hv.
    revert vs i p v k Hvs Hp Hv. induction Hl as [|q g ps l Hq Hl IH]; intros vs i p v k Hvs Hp Hv.
    { destruct i; discriminate Hp. }
    cbn [map] in Hn. inversion_clear Hn as [|? ? Hn1 Hn2].
    inversion Hvs as [|? w ? ws Hlen Hws]; subst. cbn [List.concat].
    assert (Hout : forall p n, In p ps -> In n (names_of (List.concat l)) -> exists p j, In p ps /\ n = group_name (par_id p) j).
    { intros p' n _ Hn. clear - Hl Hn. induction Hl as [|a g ps l Ha Hl IH]; [easy|]. cbn [List.concat] in Hn. rewrite names_app in Hn.
      apply in_app_or in Hn as [Hn|Hn].
      - destruct (labelled_names _ _ _ Ha Hn) as [j ->]. exists a, j. split; [now left|reflexivity].
      - destruct (IH Hn) as (b & j & Hb & ->). exists b, j. split; [now right|reflexivity]. }
    destruct i as [|i]; cbn [nth_error] in Hp, Hv.
    - injection Hp as <-. injection Hv as <-.
      assert (Hno : forall j, ~ In (group_name (par_id q) j) (names_of (List.concat l))).
      { intros j Hj. destruct ps as [|p0 ps]; [inversion Hl; subst; easy|].
        destruct (Hout p0 _ (or_introl eq_refl) Hj) as (b & j' & Hb & E). apply group_name_inj in E as [E _].
        apply Hn1. rewrite E. now apply in_map. }
      rewrite named_entry_left by (exact Hlen || apply Hno).
      destruct Hq as [[Hq1 Hq2]|[Hq1 ->]]; split; intros Hh; try contradiction.
      + exact (numbered_entry _ _ _ Hq2 w k Hlen).
      + now destruct w.
    - assert (Hin : In p ps) by (eapply nth_error_In; eassumption).
      rewrite named_entry_app.
      + now apply (IH Hn2 ws i).
      + exact Hlen.
      + intros Hj. destruct (labelled_names _ _ _ Hq Hj) as (j & E). apply group_name_inj in E as [E _].
        apply Hn1. rewrite <- E. now apply in_map.
  Qed.
End Named.

(** ** Searches with custom parameters *)
Section Whole.
  Context (digits spaces words : ranges) (to_string : hir -> str) (get : provider span).
  Notation whole := (regex_with_parameters digits spaces words to_string get).
  Notation rm := (Regex.rm (in_ranges digits) (in_ranges spaces) (in_ranges words)).
  Notation type := (custom_type digits spaces words frag get).
  Notation captures := (Match.captures (in_ranges digits) (in_ranges spaces) (in_ranges words)).

  Lemma captures_by r (R : str -> list (option str) -> Prop) subject :
    (forall pre m post c, Forall scalar m -> rm r pre m post c <-> pre = [] /\ post = [] /\ R m c) ->
    (forall pre m post c, subject = pre ++ m ++ post -> Forall scalar subject -> rm r pre m post c -> pre = [] /\ post = [] /\ R m c) ->
    Forall scalar subject ->
    (captures r subject = None <-> ~ exists v, R subject v) /\
    forall c, captures r subject = Some c -> exists v, c = Some subject :: v /\ R subject v.
  Proof.
    intros H H' Hs. unfold Match.captures. destruct (search _ _ _ r [] subject) as [[p w]|] eqn:E; cbn [option_map].
    - apply search_some in E as (q & -> & E & Hw & _). cbn [app] in Hw.
      destruct (H' q (w_mid w) (w_rest w) (w_caps w) E Hs Hw) as (-> & Er & HR). rewrite Er in E. cbn [app] in E. rewrite app_nil_r in E.
      rewrite <- E in HR |- *. split.
      + split; [discriminate|]. intros Hn. exfalso. eauto.
      + intros c Hc. injection Hc as <-. eauto.
    - split; [|discriminate]. split; [|reflexivity]. intros _ [v Hv].
      apply (search_none _ _ _ _ _ _ E [] subject [] v); [now rewrite app_nil_r|]. apply H; auto.
  Qed.
  Lemma captures_custom : tables_ok digits spaces words -> prints_meaning to_string ->
    forall s e t r, expression_parse s = RetOk e ->
    Forall (custom_valid frag get (tame digits spaces words)) (parameters e) -> whole s = XOk t r ->
    forall subject, Forall scalar subject ->
      (captures r subject = None <-> ~ exists vs, readings frag type e [] subject [] vs) /\
      forall c, captures r subject = Some c ->
        exists vs, c = Some subject :: List.concat vs /\ readings frag type e [] subject [] vs.
  Proof.
    intros Ht Hp s e t r He Hv Hr subject Hs.
    destruct (whole_means digits spaces words to_string get Ht Hp s e He Hv) as (l & _ & _ & Hm).
    destruct (Hm t r Hr) as [_ Hm'].
    destruct (captures_by r (fun m c => means_in frag type e [] m [] c) subject) as [H1 H2].
    - intros. now apply Hm'.
    - intros pre m post c -> Hsc H. apply Hm' in H; [exact H|]. rewrite !Forall_app in Hsc. tauto.
    - exact Hs.
    - split.
      + rewrite H1. split; intros Hn [v Hx]; apply Hn.
        * exists (List.concat v). apply means_readings. eauto.
        * apply means_readings in Hx as (vs & Hx & _). eauto.
      + intros c Hc. destruct (H2 c Hc) as (v & -> & Hx). apply means_readings in Hx as (vs & Hx & ->). eauto.
  Qed.
  Lemma captures_named : tables_ok digits spaces words -> prints_meaning to_string ->
    forall s e t r, addressable s -> expression_parse s = RetOk e ->
    Forall (custom_valid frag get flat) (parameters e) -> whole s = XOk t r ->
    forall subject c, Forall scalar subject -> captures r subject = Some c ->
      exists vs, c = Some subject :: List.concat vs /\ readings frag type e [] subject [] vs /\
        forall i p v, nth_error (parameters e) i = Some p -> nth_error vs i = Some v ->
          forall k n, group_named (N.of_nat i) (N.of_nat k) n ->
            (has_names frag get p -> capture_name r c n = capture_get v k) /\
            (~ has_names frag get p -> capture_name r c n = None).
  Proof.
    intros Ht Hp s e t r Ha He Hv Hr subject c Hs Hc.
    destruct (whole_renamed digits spaces words to_string get Ht Hp s e Ha He Hv) as (t' & r' & l & Hr' & Hl & Hg & _ & _).
    assert (r' = r) as -> by congruence.
    destruct (captures_custom Ht Hp s e t r He) with (subject := subject) as [_ H]; [|exact Hr|exact Hs|].
    { eapply Forall_impl; [|exact Hv]. intros p. now apply flat_valid. }
    destruct (H c Hc) as (vs & -> & Hx). exists vs. split; [reflexivity|]. split; [exact Hx|].
    intros i p v Hi Hvi k n ->%group_named_name.
    assert (Hid : N.of_nat i = par_id p).
    { pose proof (ids_count s e Ha He) as E. rewrite ids_parameters in E.
      assert (nth_error (map par_id (parameters e)) i = Some (par_id p)) as H1 by (now rewrite nth_error_map, Hi).
      rewrite E in H1. clear - H1. destruct (nth_count_from 0 (List.length (map par_id (parameters e))) i (par_id p)) as [_ E]; [exact H1|]. lia. }
    rewrite Hid. unfold capture_name. cbn [List.tl]. rewrite Hg.
    apply (lookup get (parameters e)) with (i := i).
    - rewrite <- ids_parameters. eapply parsed_ids; eassumption.
    - clear - Hl Hv. induction Hl; constructor; inversion_clear Hv; [now apply labelled_groups|auto].
    - apply readings_parameters in Hx. clear - Hl Hx. revert vs Hx.
      induction Hl as [|p g ps l Hg Hl IH]; intros vs Hx; inversion Hx as [|? v ? ws Hv Hw]; subst; constructor.
      + destruct Hv as (a & b & c & Hv). eapply typed_groups; eassumption.
      + now apply IH.
    - exact Hi.
    - exact Hvi.
  Qed.
End Whole.
Lemma group_named_inj i k n i' k' n' : group_named i k n -> group_named i' k' n' -> (n = n' <-> i = i' /\ k = k').
Proof.
  intros ->%group_named_name ->%group_named_name. split; [apply group_name_inj|]. now intros [-> ->].
Qed.
Lemma group_named_exists i k : exists n, group_named i k n.
Proof. exists (group_name i k). apply group_name_named. Qed.

(** ** Word boundaries *)
Lemma word_boundary_spec word pre post : word_boundary word pre post = true <->
  (word_before word pre /\ ~ word_after word post \/ ~ word_before word pre /\ word_after word post).
Proof.
  unfold word_boundary. rewrite <- (rev_involutive pre) at 2 3. set (l := rev pre). clearbody l. clear pre.
  assert (Hb : word_before word (rev l) <-> match l with c :: _ => word c | [] => false end = true).
  { split.
    - intros (a & c & E & Hc). destruct l as [|d l]; [now destruct a|]. cbn [rev] in E. apply app_inj_tail in E as [_ <-]. exact Hc.
    - destruct l as [|d l]; [discriminate|]. intros H. now exists (rev l), d. }
  assert (Ha : word_after word post <-> match post with c :: _ => word c | [] => false end = true).
  { split.
    - intros (c & b & -> & Hc). exact Hc.
    - destruct post as [|c b]; [discriminate|]. intros H. now exists c, b. }
  rewrite Hb, Ha. destruct (match l with c :: _ => word c | [] => false end), (match post with c :: _ => word c | [] => false end); cbn; intuition congruence.
Qed.
Lemma rm_boundary digit space word pre m post c :
  (rm digit space word (RLook LWord) pre m post c <-> m = [] /\ c = [] /\
     (word_before word pre /\ ~ word_after word post \/ ~ word_before word pre /\ word_after word post)) /\
  (rm digit space word (RLook LNotWord) pre m post c <-> m = [] /\ c = [] /\
     ~ (word_before word pre /\ ~ word_after word post \/ ~ word_before word pre /\ word_after word post)).
Proof.
  rewrite <- word_boundary_spec. split; (split; [now inversion 1; subst; repeat split; congruence|intros (-> & -> & H)]); constructor; [exact H|].
  now apply not_true_is_false.
Qed.
