(** Expansion with a provider whose answers may change. *)
From Verif Require Export SpecAsked ProofLazy.

Section Asked.
  Context {I : Type} (elements : I -> str).
  Context (digits spaces words : ranges) (to_string : hir -> str) (answer : history I -> I -> option str).
  Notation into := (single_custom_into_h elements digits spaces words to_string answer).
  Notation inner := (single_custom_next elements).
  Notation outer := (zip_next_h (@untouched I (expression I) (single_expression I) list_next) repeat_next_h).
  Notation get h := (fun i => answer h i).

  (** The pieces with the history at hand. *)
  Definition part (h : history I) (x : single_expression I) : list (item I) :=
    expand_single_custom elements digits spaces words to_string (answer (h ++ [Cloned])) x.
  Fixpoint told (h : history I) (e : expression I) : list (item I) :=
    match e with
    | [] => []
    | x :: e' => part h x ++ told (h ++ events x) e'
    end.
  Fixpoint finely (l : list (item I)) : bool :=
    match l with [] => true | IOk _ :: l' => finely l' | IErr _ :: _ => false end.
  Fixpoint asked (h : history I) (e : expression I) : history I :=
    match e with
    | [] => h
    | x :: e' => if finely (part h x) then asked (h ++ events x) e' else h ++ events x
    end.
  Definition ends (h : history I) (m : list (item I)) (e : expression I) : history I := if finely m then asked h e else h.

  Lemma into_spec h x : exists s, into x (h ++ [Cloned]) = (s, h ++ events x) /\ iterates inner s (part h x).
  Proof.
    destruct x as [a|o|p|t|t]; cbn [single_custom_into_h events];
      try (eexists; split; [reflexivity|apply either_right, single_expression_iterates]).
    eexists. unfold custom_into_h. rewrite <- app_assoc. split; [reflexivity|]. unfold part. cbn [expand_single_custom].
    apply either_left. replace (expand_custom elements digits spaces words to_string (answer (h ++ [Cloned])) p) with
      (expand_custom elements digits spaces words to_string (fun _ => answer (h ++ [Cloned]) (par_input p)) p) by reflexivity.
    apply custom_iterates.
  Qed.

  Definition ready (s : flat_mapped (expression I * unit) single_custom_iter) (m : list (item I)) (e : expression I) : Prop :=
    fm_back s = None /\ left_over inner (fm_front s) m /\ (fm_iter s = Some (e, tt) \/ fm_iter s = None /\ e = []).

  Lemma loop_asked e : forall fuel s m h, (List.length e < fuel)%nat -> ready s m e ->
    exists s' m' e' h', flat_map_loop_h outer (fun '(x, _) => into x) inner fuel s h = Some ((hd_error (m ++ told h e), s'), h') /\
      ready s' m' e' /\
      match m ++ told h e with
      | [] => m' = [] /\ e' = [] /\ h' = ends h m e
      | IErr _ :: _ => h' = ends h m e
      | IOk _ :: k => k = m' ++ told h' e' /\ ends h' m' e' = ends h m e
      end.
  Proof.
    induction e as [|x e IH]; intros [|fuel] s m h Hf (Hb & Hm & Ho); try (cbn in Hf; lia); cbn [flat_map_loop_h].
    - destruct m as [|y m].
      + rewrite (or_clear_nil _ _ Hm). cbn [app told hd_error].
        assert (E : or_clear_h outer (fm_iter s) h = ((None, None), h)) by (destruct Ho as [-> | [-> _]]; reflexivity).
        rewrite E, Hb. exists (mkFlat None None None), [], [], h. cbn. repeat split; auto.
      + apply or_clear_cons in Hm as (u & Eu & Hu). rewrite Eu. cbn [app hd_error].
        exists (mkFlat (fm_iter s) (Some u) (fm_back s)), m, [], h. split; [reflexivity|]. split; [now repeat split|].
        destruct y; [now split|reflexivity].
    - destruct m as [|y m].
      + rewrite (or_clear_nil _ _ Hm). destruct Ho as [Ho|[_ ?]]; [|discriminate].
        assert (E : or_clear_h outer (fm_iter s) h = ((Some (x, tt), Some (e, tt)), h ++ [Cloned])) by now rewrite Ho.
        rewrite E. destruct (into_spec h x) as (t & Et & Ht). rewrite Et.
        destruct (IH fuel (mkFlat (Some (e, tt)) (Some t) (fm_back s)) (part h x) (h ++ events x)) as (s' & m' & e' & h' & El & Hr & Hk).
        * cbn in Hf. lia.
        * split; [exact Hb|]. split; [exact Ht|now left].
        * exists s', m', e', h'. cbn [app told]. split; [exact El|]. split; [exact Hr|].
          assert (En : ends h [] (x :: e) = ends (h ++ events x) (part h x) e) by reflexivity. rewrite En. exact Hk.
      + apply or_clear_cons in Hm as (u & Eu & Hu). rewrite Eu. cbn [app hd_error].
        exists (mkFlat (fm_iter s) (Some u) (fm_back s)), m, (x :: e), h. split; [reflexivity|]. split; [now repeat split|].
        destruct y; [now split|reflexivity].
  Qed.
  Lemma next_asked s m e h : ready s m e ->
    exists s' m' e' h', flat_map_next_h outer (fun s => List.length (fst s)) (fun '(x, _) => into x) inner s h = ((hd_error (m ++ told h e), s'), h') /\
      ready s' m' e' /\
      match m ++ told h e with
      | [] => m' = [] /\ e' = [] /\ h' = ends h m e
      | IErr _ :: _ => h' = ends h m e
      | IOk _ :: k => k = m' ++ told h' e' /\ ends h' m' e' = ends h m e
      end.
  Proof.
    intros Hr. unfold flat_map_next_h.
    destruct (loop_asked e (2 + match fm_iter s with Some o => List.length (fst o) | None => 0 end)%nat s m h) as (s' & m' & e' & h' & E & H).
    - destruct Hr as (_ & _ & [-> | [-> ->]]); cbn; lia.
    - exact Hr.
    - exists s', m', e', h'. rewrite E. split; [reflexivity|exact H].
  Qed.

  Notation next := (expression_custom_next_h elements digits spaces words to_string answer).
  Lemma middle k : forall s m e h o fuel, m ++ told h e = k -> ready s m e -> (o = None \/ o = Some None) -> (2 + List.length k <= fuel)%nat ->
    try_collect_h next fuel (Some (o, Some s), Some (Some (IOk (c_ "$")))) h = Some (collect_result (k ++ ok (s_ "$")), ends h m e).
  Proof.
    induction k as [|y k IH]; intros s m e h o fuel Ek Hr Ho Hf; (destruct fuel as [|fuel]; [cbn in Hf; lia|]); cbn [try_collect_h];
      destruct (next_asked s m e h Hr) as (s' & m' & e' & h' & E & Hr' & H); rewrite Ek in E, H.
    - destruct H as (-> & -> & ->). cbn [hd_error] in E.
      assert (En : next (Some (o, Some s), Some (Some (IOk (c_ "$")))) h = ((Some (IOk (c_ "$")), (None, Some None)), ends h m e)).
      { unfold expression_custom_next_h. cbn [chain_next_h or_clear_h].
        destruct Ho as [-> | ->]; cbn [or_clear_h untouched once_next]; rewrite E; reflexivity. }
      rewrite En. destruct fuel as [|fuel]; [cbn in Hf; lia|]. reflexivity.
    - cbn [hd_error] in E.
      assert (En : next (Some (o, Some s), Some (Some (IOk (c_ "$")))) h = ((Some y, (Some (None, Some s'), Some (Some (IOk (c_ "$"))))), h')).
      { unfold expression_custom_next_h. cbn [chain_next_h or_clear_h].
        destruct Ho as [-> | ->]; cbn [or_clear_h untouched once_next]; rewrite E; reflexivity. }
      rewrite En. destruct y as [c|er].
      + destruct H as [-> He]. rewrite (IH s' m' e' h' None fuel eq_refl Hr' (or_introl eq_refl)); [|cbn in Hf; lia].
        rewrite He. cbn [app collect_result]. now destruct (collect_result _).
      + cbn. now rewrite H.
  Qed.
  Theorem collect_asked e : exists fuel, try_collect_h next fuel (expression_custom_into_h e) [] =
    Some (collect_result (ok (s_ "^") ++ told [] e ++ ok (s_ "$")), asked [] e).
  Proof.
    exists (S (2 + List.length (told [] e))). unfold expression_custom_into_h, chain. cbn [try_collect_h].
    assert (En : next (Some (Some (Some (IOk (c_ "^"))), Some (flat_map_new (e, tt))), Some (Some (IOk (c_ "$")))) [] =
      ((Some (IOk (c_ "^")), (Some (Some None, Some (flat_map_new (e, tt))), Some (Some (IOk (c_ "$"))))), [])) by reflexivity.
    rewrite En, (middle (told [] e) (flat_map_new (e, tt)) [] e [] (Some None)); try easy; [| |now right].
    - change (ok (s_ "^") ++ told [] e ++ ok (s_ "$")) with (IOk (c_ "^") :: (told [] e ++ @ok I (s_ "$"))). cbn [collect_result].
      now destruct (collect_result (told [] e ++ ok (s_ "$"))).
    - repeat split. now left.
  Qed.

  (** * Told by the elements before. *)
  Lemma told_answers e : forall before, told (flat_map events before) e =
    flat_map (fun n => match nth_error e n with Some x => answered elements digits spaces words to_string answer (before ++ firstn n e) x | None => [] end)
      (seq 0 (List.length e)).
  Proof.
    induction e as [|x e IH]; intros before; [reflexivity|]. cbn [told List.length seq flat_map nth_error firstn]. rewrite app_nil_r. f_equal.
    replace (flat_map events before ++ events x) with (flat_map events (before ++ [x])) by (rewrite flat_map_app; cbn; now rewrite app_nil_r).
    rewrite IH, <- seq_shift, flat_map_concat_map, (flat_map_concat_map _ (map S _)), map_map. f_equal. apply map_ext. intros n. cbn [nth_error firstn].
    destruct (nth_error e n); [|reflexivity]. now rewrite <- app_assoc.
  Qed.
  Lemma told_eq e : told [] e = answers elements digits spaces words to_string answer e.
  Proof. exact (told_answers e []). Qed.
  Lemma finely_fine l : finely l = true <-> fine l.
  Proof.
    unfold fine. induction l as [|[c|er] l IH]; cbn.
    - split; constructor.
    - rewrite IH. split; [now constructor|intros H; now inversion H].
    - split; [discriminate|intros H; now inversion H].
  Qed.
  Lemma fine_ok (l : list (item I)) : fine l <-> exists t, l = ok t.
  Proof.
    unfold fine. split.
    - induction l as [|[c|er] l IH]; intros H; [now exists []| |inversion H; contradiction]. inversion H; subst. destruct IH as [t ->]; [assumption|]. now exists (c :: t).
    - intros [t ->]. induction t; cbn; constructor; auto.
  Qed.
  Lemma collect_app t (l : list (item I)) : collect_result (ok t ++ l) = match collect_result l with inl u => inl (t ++ u) | inr er => inr er end.
  Proof.
    induction t as [|c t IH]; [cbn; now destruct (collect_result l)|]. change (ok (c :: t)) with (@IOk I c :: ok t). cbn [app collect_result]. rewrite IH.
    now destruct (collect_result l).
  Qed.
  Lemma collected (l : list (item I)) t : collect_result l = inl t -> l = ok t.
  Proof.
    revert t. induction l as [|[c|er] l IH]; cbn; intros t E; [now injection E as <-| |discriminate].
    destruct (collect_result l) as [u|]; [|discriminate]. injection E as <-. now rewrite (IH u eq_refl).
  Qed.
  Lemma stays (l m : list (item I)) er : collect_result l = inr er -> collect_result (l ++ m) = inr er.
  Proof.
    induction l as [|[c|er'] l IH]; cbn; intros E; [discriminate| |exact E]. destruct (collect_result l) as [u|er']; [discriminate|].
    now rewrite (IH E).
  Qed.
  Lemma not_fine (l : list (item I)) : ~ fine l -> exists er, collect_result l = inr er.
  Proof.
    intros H. destruct (collect_result l) as [t|er] eqn:E; [|now exists er]. destruct H. apply fine_ok. exists t. now apply collected.
  Qed.
  Notation ans := (answered elements digits spaces words to_string answer).
  Lemma asked_spec e : forall before, let r := collect_result (told (flat_map events before) e) in
    (forall t, r = inl t -> asked (flat_map events before) e = flat_map events (before ++ e)) /\
    (forall er, r = inr er -> exists b x a, e = b ++ x :: a /\ asked (flat_map events before) e = flat_map events (before ++ b ++ [x]) /\
       (forall b1 y b2, b = b1 ++ y :: b2 -> fine (ans (before ++ b1) y)) /\ collect_result (ans (before ++ b) x) = inr er).
  Proof.
    induction e as [|x e IH]; intros before; cbn [told asked].
    - split; [intros t _; now rewrite app_nil_r|discriminate].
    - replace (flat_map events before ++ events x) with (flat_map events (before ++ [x])) by (rewrite flat_map_app; cbn; now rewrite app_nil_r).
      destruct (finely (part (flat_map events before) x)) eqn:F.
      + apply finely_fine in F. pose proof F as F'. apply fine_ok in F as [u Eu]. rewrite Eu. cbn zeta. rewrite collect_app. destruct (IH (before ++ [x])) as [Ht He]. cbn zeta in Ht, He.
        split.
        * intros t. destruct (collect_result _) as [v|]; [|discriminate]. intros _. rewrite (Ht v eq_refl), <- app_assoc. reflexivity.
        * intros er. destruct (collect_result _) as [v|er']; [discriminate|]. intros [= <-].
          destruct (He er' eq_refl) as (b & y & a & -> & Ha & Hb & Hy). exists (x :: b), y, a. split; [reflexivity|]. rewrite <- app_assoc in Ha, Hy.
          split; [exact Ha|]. split; [|exact Hy]. intros [|z b1] w b2 Eb; cbn in Eb; injection Eb as -> Eb.
          -- rewrite app_nil_r. exact F'.
          -- specialize (Hb b1 w b2 Eb). rewrite <- app_assoc in Hb. exact Hb.
      + assert (N : ~ fine (part (flat_map events before) x)) by (intros N; apply finely_fine in N; congruence). cbn zeta.
        apply not_fine in N as [er Er]. rewrite (stays _ _ er Er). split; [discriminate|]. intros er' [= <-].
        exists [], x, e. split; [reflexivity|]. split; [reflexivity|]. split; [intros [|] ? ? D; discriminate|].
        rewrite app_nil_r. exact Er.
  Qed.
  Lemma collect_last (l : list (item I)) : collect_result (ok (s_ "^") ++ l ++ ok (s_ "$")) =
    match collect_result l with inl t => inl (s_ "^" ++ t ++ s_ "$") | inr er => inr er end.
  Proof.
    rewrite collect_app. destruct (collect_result l) as [t|er] eqn:E.
    - apply collected in E. subst. rewrite collect_app. reflexivity.
    - now rewrite (stays _ _ _ E).
  Qed.
  Theorem asked_outcome e : exists fuel h,
    try_collect_h next fuel (expression_custom_into_h e) [] =
      Some (match collect_result (answers elements digits spaces words to_string answer e) with
            | inl t => inl (s_ "^" ++ t ++ s_ "$")
            | inr er => inr er
            end, h) /\
    (forall t, collect_result (answers elements digits spaces words to_string answer e) = inl t -> h = flat_map events e) /\
    (forall er, collect_result (answers elements digits spaces words to_string answer e) = inr er ->
       exists before x after, e = before ++ x :: after /\ h = flat_map events (before ++ [x]) /\
         (forall b1 y b2, before = b1 ++ y :: b2 -> fine (ans b1 y)) /\ collect_result (ans before x) = inr er).
  Proof.
    destruct (collect_asked e) as [fuel E]. exists fuel, (asked [] e). rewrite E, collect_last, <- told_eq. split; [reflexivity|]. exact (asked_spec e []).
  Qed.
End Asked.

Lemma questions_events {I} (e : expression I) : questions (flat_map events e) = names e.
Proof. unfold questions, names. induction e as [|x e IH]; [reflexivity|]. destruct x; cbn in *; now rewrite IH. Qed.
Lemma clones_events {I} (e : expression I) : clones (flat_map events e) = List.length e.
Proof. unfold clones. induction e as [|x e IH]; [reflexivity|]. destruct x; cbn in *; now rewrite IH. Qed.

Theorem asked_steady {I} (elements : I -> str) digits spaces words to_string (get : provider I) e :
  answers elements digits spaces words to_string (fun _ => get) e = flat_map (expand_single_custom elements digits spaces words to_string get) e.
Proof.
  rewrite <- told_eq. generalize (@nil (event I)). induction e as [|x e IH]; intros h; [reflexivity|]. cbn [told flat_map]. now rewrite IH.
Qed.

Theorem asked_whole digits spaces words to_string answer input : exists fuel h,
  regex_with_h digits spaces words to_string answer fuel input =
    Some (regex_by (fun e => ok (s_ "^") ++ answers iter_elements digits spaces words to_string answer e ++ ok (s_ "$")) input, h) /\
  match expression_parse input with
  | RetOk e => exists asked_for left_out, e = asked_for ++ left_out /\ h = flat_map events asked_for /\
      forall t r, regex_with_h digits spaces words to_string answer fuel input = Some (XOk t r, h) -> left_out = []
  | _ => h = []
  end.
Proof.
  unfold regex_with_h, regex_by. destruct (expression_parse input) as [e|er| |]; try (exists 0%nat, []; now split).
  destruct (asked_outcome iter_elements digits spaces words to_string answer e) as (fuel & h & E & Ht & He). exists fuel, h. rewrite E, collect_last.
  destruct (collect_result (answers iter_elements digits spaces words to_string answer e)) as [t|er] eqn:C.
  - split; [reflexivity|]. exists e, []. rewrite app_nil_r. split; [reflexivity|]. split; [now apply (Ht t)|reflexivity].
  - split; [now destruct er|]. destruct (He er eq_refl) as (b & x & a & -> & -> & _). exists (b ++ [x]), a. rewrite <- app_assoc. split; [reflexivity|].
    split; [reflexivity|]. intros t r. destruct er; discriminate.
Qed.
Theorem asked_steadily digits spaces words to_string (get : provider span) input : exists fuel h,
  regex_with_h digits spaces words to_string (fun _ => get) fuel input = Some (regex_with_parameters digits spaces words to_string get input, h).
Proof.
  destruct (asked_whole digits spaces words to_string (fun _ => get) input) as (fuel & h & E & _). exists fuel, h. rewrite E. unfold regex_with_parameters, regex_by.
  destruct (expression_parse input); try reflexivity. now rewrite asked_steady.
Qed.
