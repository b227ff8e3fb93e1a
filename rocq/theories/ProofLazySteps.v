(** The counted iterators: they are those of Lazy.v, and what they cost. *)
From Coq Require Import PeanoNat.
From Verif Require Export SpecLazySteps ProofLazy.
Local Open Scope nat_scope.

(** ** Counting changes nothing *)
Definition same {St A} (c : counted St A) (next : iter St A) : Prop := forall s, fst (c s) = next s.
Lemma same_eq {St A} (c : counted St A) next : same c next -> forall s, c s = (next s, snd (c s)).
Proof. intros H s. rewrite <- H. apply surjective_pairing. Qed.
Lemma list_same {A} : same (@list_steps A) list_next.
Proof. easy. Qed.
Lemma once_same {A} : same (@once_steps A) once_next.
Proof. easy. Qed.
Lemma map_same {St A B} (f : A -> B) (c : counted St A) next : same c next -> same (map_steps f c) (map_next f next).
Proof. intros H s. unfold map_steps, map_next. rewrite <- H. now destruct (c s) as [[]]. Qed.
Lemma or_clear_same {St A} (c : counted St A) next : same c next -> same (or_clear_steps c) (or_clear next).
Proof. intros H [s|]; [|easy]. cbn. rewrite <- H. now destruct (c s) as [[[]]]. Qed.
Lemma chain_same {S1 S2 A} (c1 : counted S1 A) (c2 : counted S2 A) n1 n2 : same c1 n1 -> same c2 n2 ->
  same (chain_steps c1 c2) (chain_next n1 n2).
Proof.
  intros H1 H2 [a b]. unfold chain_steps, chain_next. rewrite <- (or_clear_same _ _ H1).
  destruct (or_clear_steps c1 a) as [[[x|] a'] n]; cbn [fst]; [easy|]. destruct b as [t|]; [|easy].
  rewrite <- H2. now destruct (c2 t) as [[]].
Qed.
Lemma either_same {S1 S2 A} (c1 : counted S1 A) (c2 : counted S2 A) n1 n2 : same c1 n1 -> same c2 n2 ->
  same (either_steps c1 c2) (either_next n1 n2).
Proof. intros H1 H2 [s|s]; cbn; [rewrite <- H1; now destruct (c1 s) as [[]]|rewrite <- H2; now destruct (c2 s) as [[]]]. Qed.
Lemma zip_same {S1 S2 A B} (c1 : counted S1 A) (c2 : counted S2 B) n1 n2 : same c1 n1 -> same c2 n2 ->
  same (zip_steps c1 c2) (zip_next n1 n2).
Proof.
  intros H1 H2 [a b]. cbn. rewrite <- H1. destruct (c1 a) as [[[x|] a'] n]; cbn [fst]; [|easy].
  rewrite <- H2. now destruct (c2 b) as [[[]]].
Qed.
Lemma flat_same {S1 S2 A B} (co : counted S1 A) size (f : A -> S2 * nat) (ci : counted S2 B) outer g inner :
  same co outer -> same ci inner -> (forall a, fst (f a) = g a) ->
  same (flat_map_steps co size f ci) (flat_map_next outer size g inner).
Proof.
  intros Ho Hi Hf s. unfold flat_map_steps, flat_map_next.
  enough (E : forall fuel s, flat_map_loop outer g inner fuel s = option_map fst (flat_map_loop_steps co f ci fuel s)).
  { rewrite E. now destruct (flat_map_loop_steps co f ci _ s) as [[]|]. }
  clear s. induction fuel as [|fuel IH]; intros s; [reflexivity|]. cbn [flat_map_loop flat_map_loop_steps].
  rewrite <- (or_clear_same _ _ Hi). destruct (or_clear_steps ci (fm_front s)) as [[[x|] u] n]; cbn [fst]; [reflexivity|].
  rewrite <- (or_clear_same _ _ Ho). destruct (or_clear_steps co (fm_iter s)) as [[[a|] o] m]; cbn [fst].
  - rewrite <- Hf, IH. now destruct (flat_map_loop_steps co f ci fuel _) as [[]|].
  - rewrite <- (or_clear_same _ _ Hi). now destruct (or_clear_steps ci (fm_back s)) as [[]].
Qed.
Lemma peekable_same {St A} (c : counted St A) next : same c next -> same (peekable_steps c) (peekable_next next).
Proof. intros H [[v|] s]; [reflexivity|]. unfold peekable_steps, peekable_next. cbn. rewrite <- H. now destruct (c s) as [[]]. Qed.
Lemma peek_same {St A} (c : counted St A) next : same c next -> same (peek_steps c) (peekable_peek next).
Proof. intros H [[v|] s]; [reflexivity|]. unfold peek_steps, peekable_peek. cbn. rewrite <- H. now destruct (c s) as [[]]. Qed.
Lemma skip_last_same {St A} (c : counted St A) next : same c next -> same (skip_last_steps c) (skip_last_next next).
Proof.
  intros H p. unfold skip_last_steps, skip_last_next. rewrite <- (peekable_same _ _ H).
  destruct (peekable_steps c p) as [[x p1] n]. cbn [fst]. rewrite <- (peek_same _ _ H). now destruct (peek_steps c p1) as [[]].
Qed.
Lemma owned_same : same owned_chars_steps owned_chars_next.
Proof. intros s. rewrite <- owned_next_same. unfold owned_chars_steps. now destruct (owned_chars_next_calls s). Qed.
Lemma escape_same {St} (c : counted St char) next : same c next -> same (escape_steps c) (escape_next next).
Proof.
  intros H s. unfold escape_steps, escape_next. destruct (es_was_escaped s); [reflexivity|].
  enough (E : forall fuel p, escape_loop next fuel p = option_map fst (escape_loop_steps c fuel p)).
  { rewrite E. now destruct (escape_loop_steps c 2 (es_iter s)) as [[]|]. }
  clear s. induction fuel as [|fuel IH]; intros p; [reflexivity|]. cbn [escape_loop escape_loop_steps].
  rewrite <- (peekable_same _ _ H). destruct (peekable_steps c p) as [[[x|] p1] n]; cbn [fst]; [|reflexivity].
  destruct (x =? c_ "\")%N; [|now destruct (should_be_escaped x)].
  rewrite <- (peek_same _ _ H). destruct (peek_steps c p1) as [[[d|] p2] m]; cbn [fst]; [|reflexivity].
  destruct (should_be_escaped d).
  - rewrite <- (peekable_same _ _ H). now destruct (peekable_steps c p2) as [[]].
  - rewrite IH. now destruct (escape_loop_steps c fuel p2) as [[]|].
Qed.

Section Same.
  Context {I : Type} (elements : I -> str).
  Lemma chars_same : same chars_steps list_next.
  Proof. intros [|x s]; reflexivity. Qed.
  Lemma text_same : same (@text_steps I) text_next.
  Proof. apply map_same, escape_same, chars_same. Qed.
  Lemma optional_same : same (@optional_steps I) optional_next.
  Proof. apply map_same, chain_same; [apply chain_same|]; try apply list_same. apply escape_same, chars_same. Qed.
  Lemma alternative_same : same (@alternative_steps I) alternative_next.
  Proof. apply either_same; [apply optional_same|apply text_same]. Qed.
  Lemma single_alternation_same : same (single_alternation_steps elements) (single_alternation_next elements).
  Proof. apply chain_same; [|apply once_same]. apply flat_same; [apply list_same|apply alternative_same|reflexivity]. Qed.
  Lemma alternation_same : same (alternation_steps elements) (alternation_next elements).
  Proof.
    apply chain_same; [apply chain_same|apply once_same]; [apply map_same, list_same|].
    apply skip_last_same, flat_same; [apply list_same|apply single_alternation_same|reflexivity].
  Qed.
  Lemma parameter_same : same (@parameter_steps I) parameter_next.
  Proof. apply either_same; [apply either_same; apply map_same; [apply list_same|apply owned_same]|apply once_same]. Qed.
  Lemma single_expression_same : same (single_expression_steps elements) (single_expression_next elements).
  Proof. apply either_same; [apply alternation_same|]. apply either_same; [apply optional_same|]. apply either_same; [apply parameter_same|apply text_same]. Qed.
  Theorem expression_same : same (expression_steps elements) (expression_next elements).
  Proof.
    apply chain_same; [apply chain_same|]; try apply once_same.
    apply flat_same; [apply list_same|apply single_expression_same|reflexivity].
  Qed.
  Context (digits spaces words : ranges) (to_string : hir -> str).
  Lemma custom_same : same (@custom_steps I) custom_next.
  Proof.
    apply either_same; [apply once_same|]. apply either_same; [apply parameter_same|].
    apply either_same; apply chain_same; try apply once_same; apply chain_same; try apply once_same;
      apply map_same; try apply list_same. apply owned_same.
  Qed.
  Lemma single_custom_same : same (single_custom_steps elements) (single_custom_next elements).
  Proof. apply either_same; [apply custom_same|apply single_expression_same]. Qed.
  Lemma zipped_same {A B} : same (map_steps (fun x => x) (zip_steps list_steps repeat_steps)) (zip_next (@list_next A) (@repeat_next B)).
  Proof. intros [[|x l] y]; reflexivity. Qed.
  Theorem expression_custom_same : same (expression_custom_steps elements digits spaces words to_string)
    (expression_custom_next elements digits spaces words to_string).
  Proof.
    apply chain_same; [apply chain_same|]; try apply once_same.
    apply flat_same; [apply zipped_same|apply single_custom_same|now intros []].
  Qed.
End Same.
Lemma try_collect_same {St I} (c : counted St (item I)) next : same c next -> forall fuel s,
  option_map fst (try_collect_steps c fuel s) = option_map fst (try_collect next fuel s).
Proof.
  intros H fuel. induction fuel as [|fuel IH]; intros s; [reflexivity|]. cbn. rewrite <- H.
  destruct (c s) as [[[[x|e]|] s'] n]; cbn [fst]; try reflexivity. specialize (IH s').
  destruct (try_collect_steps c fuel s') as [[[t|e] m]|], (try_collect next fuel s') as [[[t'|e'] m']|]; cbn in *; congruence.
Qed.

(** ** Costs *)
(** Every call costs at most [k], and what was saved; nothing need be left for the calls after the last,
    unless [again]. *)
Definition cheap {St A} (again : bool) (c : counted St A) (saved : St -> nat) (k : nat) : Prop := forall s,
  match c s with
  | ((Some _, s'), n) => n + saved s' <= saved s + k
  | ((None, s'), n) => n + (if again then saved s' else 0) <= saved s + k
  end.
Definition saved_opt {St} (saved : St -> nat) (o : option St) : nat := match o with Some s => saved s | None => 0 end.
Definition none {St} : St -> nat := fun _ => 0.
Lemma cheap_once {St A} again (c : counted St A) saved k : cheap true c saved k -> cheap again c saved k.
Proof. intros H s. specialize (H s). destruct (c s) as [[[x|] s'] n]; [exact H|destruct again; lia]. Qed.
Lemma cheap_more {St A} again (c : counted St A) saved k k' : k <= k' -> cheap again c saved k -> cheap again c saved k'.
Proof. intros Hk H s. specialize (H s). destruct (c s) as [[[x|] s'] n]; lia. Qed.
Lemma list_cheap {A} again : cheap again (@list_steps A) none 1.
Proof. intros [|x l]; cbn; unfold none; destruct again; lia. Qed.
Lemma once_cheap {A} again : cheap again (@once_steps A) none 1.
Proof. intros [x|]; cbn; unfold none; destruct again; lia. Qed.
Lemma map_cheap {St A B} again (f : A -> B) (c : counted St A) saved k : cheap again c saved k ->
  cheap again (map_steps f c) saved (S k).
Proof. intros H s. specialize (H s). unfold map_steps. destruct (c s) as [[[x|] s'] n]; cbn; lia. Qed.
Lemma or_clear_cheap {St A} (c : counted St A) saved k : cheap false c saved k ->
  cheap true (or_clear_steps c) (saved_opt saved) k.
Proof. intros H [s|]; cbn; [|lia]. specialize (H s). destruct (c s) as [[[x|] s'] n]; cbn; lia. Qed.
Lemma chain_cheap {S1 S2 A} again (c1 : counted S1 A) (c2 : counted S2 A) s1 s2 k1 k2 :
  cheap false c1 s1 k1 -> cheap again c2 s2 k2 ->
  cheap again (chain_steps c1 c2) (fun '(a, b) => saved_opt s1 a + saved_opt s2 b) (1 + k1 + k2).
Proof.
  intros H1 H2 [a b]. unfold chain_steps. apply or_clear_cheap in H1. specialize (H1 a).
  destruct (or_clear_steps c1 a) as [[[x|] a'] n]; [lia|]. destruct b as [t|]; [|cbn in *; destruct again; lia].
  specialize (H2 t). cbn [saved_opt]. destruct (c2 t) as [[[x|] t'] m]; cbn [saved_opt]; destruct again; lia.
Qed.
Lemma either_cheap {S1 S2 A} again (c1 : counted S1 A) (c2 : counted S2 A) s1 s2 k :
  cheap again c1 s1 k -> cheap again c2 s2 k ->
  cheap again (either_steps c1 c2) (fun s => match s with inl a => s1 a | inr b => s2 b end) (S k).
Proof.
  intros H1 H2 [s|s]; [specialize (H1 s)|specialize (H2 s)]; cbn;
    [destruct (c1 s) as [[[x|] s'] n]|destruct (c2 s) as [[[x|] s'] n]]; lia.
Qed.
(** What [FlatMap] has saved: what the inner iterators have, and for each item of the outer one what it
    takes to turn it into an iterator, to run it, and to see that it is over. *)
Definition flat_saved {S1 S2} (so : S1 -> nat) (si : S2 -> nat) (s : flat_mapped S1 S2) : nat :=
  saved_opt si (fm_front s) + saved_opt so (fm_iter s) + saved_opt si (fm_back s).
Lemma flat_cheap {S1 S2 A B} again (co : counted S1 A) size (f : A -> S2 * nat) (ci : counted S2 B) so si ko ki :
  (forall o, match co o with
             | ((Some a, o'), n) => n <= ko /\ so o' + (snd (f a) + si (fst (f a)) + ko + ki) <= so o
             | ((None, o'), n) => n <= ko end) ->
  cheap false ci si ki ->
  cheap again (flat_map_steps co size f ci) (flat_saved so si) (1 + ki + ko + ki).
Proof.
  intros Ho Hi. apply cheap_once. intros s. unfold flat_map_steps. set (fuel := 2 + _). clearbody fuel. revert s.
  enough (E : forall fuel s, match flat_map_loop_steps co f ci fuel s with
              | Some ((x, s'), n) => n + flat_saved so si s' <= flat_saved so si s + (ki + ko + ki)
              | None => True end).
  { intros s. specialize (E fuel s). destruct (flat_map_loop_steps co f ci fuel s) as [[[[x|] s'] n]|]; lia. }
  apply or_clear_cheap in Hi. clear fuel.
  induction fuel as [|fuel IH]; intros [o u v]; cbn [flat_map_loop_steps fm_front fm_iter fm_back]; [easy|].
  pose proof (Hi u) as H1. destruct (or_clear_steps ci u) as [[[x|] u'] n]; unfold flat_saved in *; cbn [fm_front fm_iter fm_back].
  - lia.
  - destruct o as [o|]; cbn [or_clear_steps].
    + specialize (Ho o). destruct (co o) as [[[a|] o'] m].
      * specialize (IH (mkFlat (Some o') (Some (fst (f a))) v)). cbn [fm_front fm_iter fm_back saved_opt] in *.
        destruct (flat_map_loop_steps co f ci fuel _) as [[[x s'] k]|]; [|easy]. lia.
      * cbn [saved_opt]. pose proof (Hi v) as H2. destruct (or_clear_steps ci v) as [[[x|] v'] k]; cbn [fm_front fm_iter fm_back saved_opt] in *; lia.
    + cbn [saved_opt]. pose proof (Hi v) as H2. destruct (or_clear_steps ci v) as [[[x|] v'] k]; cbn [fm_front fm_iter fm_back saved_opt] in *; lia.
Qed.
Fixpoint add_up (l : list nat) : nat := match l with [] => 0 | n :: l' => n + add_up l' end.
Lemma sum_app l m : add_up (l ++ m) = add_up l + add_up m.
Proof. induction l as [|n l IH]; cbn; lia. Qed.
Definition items_saved {A S2} (f : A -> S2 * nat) (si : S2 -> nat) (k : nat) (l : list A) : nat :=
  add_up (map (fun a => snd (f a) + si (fst (f a)) + k) l).
Lemma flat_list_cheap {S2 A B} again (f : A -> S2 * nat) (ci : counted S2 B) si ki :
  cheap false ci si ki ->
  cheap again (flat_map_steps list_steps (@List.length _) f ci) (flat_saved (items_saved f si (1 + ki)) si) (2 + 2 * ki).
Proof.
  intros H. apply (cheap_more again _ _ (1 + ki + 1 + ki)); [lia|]. apply flat_cheap; [|exact H].
  intros [|a l]; cbn; [lia|]. unfold items_saved. lia.
Qed.
Lemma peekable_cheap {St A} (c : counted St A) saved k : cheap true c saved k -> cheap true (peekable_steps c) (fun p => saved (pk_iter p)) (1 + k).
Proof. intros H [[[v|]|] s]; unfold peekable_steps; cbn; try lia. specialize (H s). destruct (c s) as [[[x|] s'] n]; cbn; lia. Qed.
Lemma peek_cheap {St A} (c : counted St A) saved k : cheap true c saved k -> cheap true (peek_steps c) (fun p => saved (pk_iter p)) (1 + k).
Proof. intros H [[[v|]|] s]; unfold peek_steps; cbn; try lia. specialize (H s). destruct (c s) as [[[x|] s'] n]; cbn; lia. Qed.
Lemma skip_last_cheap {St A} again (c : counted St A) saved k : cheap true c saved k ->
  cheap again (skip_last_steps c) (fun p => saved (pk_iter p)) (3 + 2 * k).
Proof.
  intros H. apply cheap_once. intros p. unfold skip_last_steps. pose proof (peekable_cheap _ _ _ H p) as H1.
  destruct (peekable_steps c p) as [[x p1] n]. pose proof (peek_cheap _ _ _ H p1) as H2.
  destruct (peek_steps c p1) as [[[y|] p2] m]; destruct x as [x|]; lia.
Qed.
Lemma escape_cheap {St} again (c : counted St char) saved k : cheap true c saved k ->
  cheap again (escape_steps c) (fun s => saved (pk_iter (es_iter s))) (6 + 5 * k).
Proof.
  intros H. apply cheap_once. intros [p w]. unfold escape_steps. cbn [es_was_escaped es_iter]. destruct w as [w|]; [cbn; lia|].
  enough (E : forall fuel p, match escape_loop_steps c fuel p with
              | Some ((x, s'), n) => n + saved (pk_iter (es_iter s')) <= saved (pk_iter p) + fuel * (2 + 2 * k) + (1 + k)
              | None => True end).
  { specialize (E 2 p). destruct (escape_loop_steps c 2 p) as [[[[x|] s'] n]|]; cbn [es_iter]; lia. }
  clear p. induction fuel as [|fuel IH]; intros p; [easy|]. cbn [escape_loop_steps].
  pose proof (peekable_cheap _ _ _ H p) as H1. destruct (peekable_steps c p) as [[[x|] p1] n]; cbn [es_iter]; [|lia].
  destruct (x =? c_ "\")%N; [|destruct (should_be_escaped x); cbn [es_iter]; lia].
  pose proof (peek_cheap _ _ _ H p1) as H2. destruct (peek_steps c p1) as [[[d|] p2] m]; cbn [es_iter]; [|lia].
  destruct (should_be_escaped d).
  - pose proof (peekable_cheap _ _ _ H p2) as H3. destruct (peekable_steps c p2) as [[[w|] p3] l]; cbn [es_iter]; lia.
  - specialize (IH p2). destruct (escape_loop_steps c fuel p2) as [[[y s'] l]|]; [|easy]. lia.
Qed.

(** ** [OwnedChars] *)
Definition owned_saved (s : owned_chars) : nat :=
  triangle (S (List.length (oc_str s))) - triangle (Nat.min (oc_cur s) (List.length (oc_str s))).
Lemma triangle_mono n m : n <= m -> triangle n <= triangle m.
Proof. induction 1; cbn; lia. Qed.
Lemma owned_turn s :
  match owned_chars_steps s with
  | ((Some _, s'), n) => n + owned_saved s' = owned_saved s + 1
  | ((None, s'), n) => n = owned_saved s + 1
  end.
Proof.
  destruct s as [t k]. unfold owned_chars_steps, owned_chars_next_calls, owned_saved. cbn [oc_str oc_cur]. rewrite nth_calls_eq.
  destruct (nth_error t k) as [c|] eqn:E; cbn [oc_str oc_cur].
  - assert (k < List.length t) by (apply nth_error_Some; congruence).
    replace (Nat.min k _) with k by lia. replace (Nat.min (S k) _) with (S k) by lia.
    pose proof (triangle_mono (S k) (S (List.length t)) ltac:(lia)) as H1. cbn [triangle] in *. lia.
  - apply nth_error_None in E. replace (Nat.min k _) with (List.length t) by lia. cbn [triangle]. lia.
Qed.
Lemma owned_cheap : cheap false owned_chars_steps owned_saved 1.
Proof. intros s. pose proof (owned_turn s) as H. destruct (owned_chars_steps s) as [[[x|] s'] n]; lia. Qed.
Lemma owned_new t : owned_saved (owned_chars_new t) = reread t.
Proof. unfold owned_saved, reread. cbn. lia. Qed.

Section Cheap.
  Context {I : Type} (elements : I -> str).
  Lemma chars_cheap : cheap true chars_steps none 2.
  Proof. apply map_cheap, list_cheap. Qed.
  Lemma escape_chars again : cheap again (escape_steps chars_steps) none 16.
  Proof. exact (escape_cheap again chars_steps none 2 chars_cheap). Qed.
  Lemma text_cheap again : cheap again (@text_steps I) none 17.
  Proof. apply map_cheap, escape_chars. Qed.
  Definition optional_saved : optional_iter -> nat := fun '(a, b) =>
    saved_opt (fun '(c, d) => saved_opt none c + saved_opt none d) a + saved_opt none b.
  Lemma optional_cheap again : cheap again (@optional_steps I) optional_saved 21.
  Proof.
    apply map_cheap, (chain_cheap again _ _ _ _ 18 1); [|apply list_cheap].
    apply (chain_cheap false _ _ _ _ 1 16); [apply list_cheap|apply escape_chars].
  Qed.
  Definition alternative_saved : alternative_iter -> nat := fun s => match s with inl a => optional_saved a | inr b => 0 end.
  Lemma alternative_cheap again : cheap again (@alternative_steps I) alternative_saved 22.
  Proof. apply (either_cheap again _ _ _ _ 21); [apply optional_cheap|]. apply (cheap_more again _ _ 17); [lia|apply text_cheap]. Qed.
  Definition pieces_saved : flat_mapped (single_alternation I) alternative_iter -> nat :=
    flat_saved (items_saved (free (alternative_into elements)) alternative_saved 23) alternative_saved.
  Definition single_alternation_saved : @single_alternation_iter I -> nat := fun '(a, b) => saved_opt pieces_saved a + saved_opt none b.
  Lemma single_alternation_cheap again : cheap again (single_alternation_steps elements) single_alternation_saved 48.
  Proof.
    apply (chain_cheap again _ _ _ _ 46 1); [|apply once_cheap]. apply (flat_list_cheap false _ _ _ 22), alternative_cheap.
  Qed.
  Definition branches_saved : flat_mapped (alternation I) single_alternation_iter -> nat :=
    flat_saved (items_saved (free single_alternation_into) single_alternation_saved 49) single_alternation_saved.
  Definition alternation_saved : @alternation_iter I -> nat := fun '(a, b) =>
    saved_opt (fun '(c, d) => saved_opt none c + saved_opt (fun p => branches_saved (pk_iter p)) d) a + saved_opt none b.
  Lemma alternation_cheap again : cheap again (alternation_steps elements) alternation_saved 204.
  Proof.
    apply (chain_cheap again _ _ _ _ 202 1); [|apply once_cheap]. apply (chain_cheap false _ _ _ _ 2 199); [apply map_cheap, list_cheap|].
    apply (skip_last_cheap false _ _ 98). apply (flat_list_cheap true _ _ _ 48), single_alternation_cheap.
  Qed.
  Definition parameter_saved : @parameter_iter I -> nat := fun s =>
    match s with inl (inr o) => owned_saved o | _ => 0 end.
  Lemma parameter_cheap : cheap false (@parameter_steps I) parameter_saved 4.
  Proof.
    intros s. assert (H : cheap false (@parameter_steps I)
      (fun s => match s with inl a => match a with inl b => 0 | inr b => owned_saved b end | inr b => none b end) 4).
    { apply (either_cheap false _ _ _ _ 3); [|apply (cheap_more false _ _ 1); [lia|apply once_cheap]].
      apply (either_cheap false _ _ _ _ 2); apply map_cheap; [apply list_cheap|apply owned_cheap]. }
    specialize (H s). unfold parameter_saved. destruct (parameter_steps s) as [[[x|] [[s'|s']|s']] n]; destruct s as [[s|s]|s]; exact H.
  Qed.
  Definition single_expression_saved : @single_expression_iter I -> nat := fun s =>
    match s with
    | inl a => alternation_saved a
    | inr t => match t with inl a => optional_saved a | inr u => match u with inl a => parameter_saved a | inr b => 0 end end
    end.
  Lemma single_expression_cheap : cheap false (single_expression_steps elements) single_expression_saved 205.
  Proof.
    apply (either_cheap false _ _ _ _ 204); [apply alternation_cheap|]. apply (cheap_more false _ _ 22); [lia|].
    apply (either_cheap false _ _ _ _ 21); [apply optional_cheap|]. apply (cheap_more false _ _ 18); [lia|].
    apply (either_cheap false _ _ _ _ 17); [|apply text_cheap]. apply (cheap_more false _ _ 4); [lia|apply parameter_cheap].
  Qed.
  Definition expressions_saved : flat_mapped (expression I) single_expression_iter -> nat :=
    flat_saved (items_saved (single_expression_into_steps elements) single_expression_saved 206) single_expression_saved.
  Definition expression_saved : @expression_iter I -> nat := fun '(a, b) =>
    saved_opt (fun '(c, d) => saved_opt none c + saved_opt expressions_saved d) a + saved_opt none b.
  Lemma expression_cheap : cheap false (expression_steps elements) expression_saved 416.
  Proof.
    apply (chain_cheap false _ _ _ _ 414 1); [|apply once_cheap]. apply (chain_cheap false _ _ _ _ 1 412); [apply once_cheap|].
    apply (flat_list_cheap false _ _ _ 205), single_expression_cheap.
  Qed.

  (** What is saved at the start. *)
  Lemma eq_costs a : forall b, eq_steps a b <= 3 * (List.length b + 1).
  Proof. induction a as [|x a IH]; intros [|y b]; cbn; try lia. destruct (x =? y)%N; [|lia]. specialize (IH b). lia. Qed.
  Lemma name_costs n : forall l, name_steps n l <= add_up (map (fun t => 3 * (List.length t + 1)) l).
  Proof.
    induction l as [|t l IH]; [cbn; lia|]. cbn [name_steps map add_up]. pose proof (eq_costs n t). destruct (chars_eq n t); lia.
  Qed.
  Lemma parameter_start p : snd (parameter_into_steps elements p) <= 69 /\
    parameter_saved (parameter_into elements p) <= match copied_builtin elements p with Some t => reread t | None => 0 end.
  Proof.
    split.
    - pose proof (name_costs (elements (par_input p)) [s_ "int"; s_ "float"; s_ "word"; s_ "string"; s_ ""]) as H.
      cbn [map add_up] in H. unfold parameter_into_steps, snd. eapply Nat.le_trans; [exact H|]. cbn. lia.
    - unfold parameter_into, copied_builtin, chars_eq. destruct (str_eqb _ (s_ "int")) eqn:E1; [cbn; lia|].
      destruct (str_eqb _ (s_ "float")) eqn:E2; [cbn; lia|]. destruct (str_eqb _ (s_ "word")) eqn:E3; [cbn; lia|].
      destruct (str_eqb _ (s_ "string")) eqn:E4; [cbn [parameter_saved]; now rewrite owned_new|].
      destruct (str_eqb _ (s_ "")); cbn; lia.
  Qed.
  Lemma alternative_start a : alternative_saved (alternative_into elements a) = 0.
  Proof. now destruct a. Qed.
  Lemma branch_start b : single_alternation_saved (single_alternation_into b) = 23 * List.length b.
  Proof.
    unfold single_alternation_saved, single_alternation_into, chain, flat_map_new. cbn [saved_opt]. unfold pieces_saved, flat_saved.
    cbn [fm_front fm_iter fm_back saved_opt none]. unfold items_saved, free. cbn [fst snd]. unfold none.
    induction b as [|a b IH]; [reflexivity|]. cbn [map add_up List.length]. rewrite alternative_start. lia.
  Qed.
  Lemma alternation_start a : alternation_saved (alternation_into a) = 23 * List.length (List.concat a) + 49 * List.length a.
  Proof.
    unfold alternation_saved, alternation_into, chain, skip_last_new, peekable_new, flat_map_new. cbn [saved_opt pk_iter].
    unfold branches_saved, flat_saved. cbn [fm_front fm_iter fm_back saved_opt]. unfold items_saved, free, none. cbn [fst snd].
    induction a as [|b a IH]; [reflexivity|]. cbn [map add_up List.concat List.length]. rewrite branch_start, app_length.
    unfold single_alternation in *. lia.
  Qed.
  Lemma single_start x :
    snd (single_expression_into_steps elements x) + single_expression_saved (fst (single_expression_into_steps elements x)) + 206
    <= 275 * node_count_single x + match x with ExParameter p => match copied_builtin elements p with Some t => reread t | None => 0 end | _ => 0 end.
  Proof.
    destruct x as [a|o|p|t|t]; unfold single_expression_into_steps; cbn [fst snd single_expression_into single_expression_saved node_count_single].
    - rewrite alternation_start. unfold alternation, single_alternation in *. lia.
    - cbn. lia.
    - pose proof (parameter_start p). lia.
    - lia.
    - lia.
  Qed.
  Lemma expression_start e : expression_saved (expression_into e) <= 275 * node_count e + rereads (copied_builtin elements) e.
  Proof.
    unfold expression_saved, expression_into, chain, flat_map_new. cbn [saved_opt]. unfold expressions_saved, flat_saved.
    cbn [fm_front fm_iter fm_back saved_opt]. unfold items_saved, none.
    induction e as [|x e IH]; [cbn; lia|]. cbn [map add_up node_count rereads]. pose proof (single_start x) as H. destruct x; lia.
  Qed.
End Cheap.

(** ** Collecting *)
Lemma collect_cheap {St I} (c : counted St (item I)) saved k next : same c next -> cheap false c saved k ->
  forall l s, iterates next s l -> exists n,
  try_collect_steps c (S (List.length l)) s = Some (collect_result l, n) /\ n <= k * calls l + saved s.
Proof.
  intros Hc Hk l. induction l as [|[x|e] l IH]; intros s H; cbn [List.length]; cbn [try_collect_steps].
  - apply iterates_nil in H as (s' & E & H). specialize (Hk s). rewrite (same_eq _ _ Hc), E in *. eexists. split; [reflexivity|]. cbn [calls]. lia.
  - apply iterates_cons in H as (s' & E & H). specialize (Hk s). rewrite (same_eq _ _ Hc), E in *.
    destruct (IH s' H) as (m & Em & Hm). cbn [try_collect_steps] in Em. rewrite Em. cbn [calls collect_result].
    destruct (collect_result l); eexists; (split; [reflexivity|]); lia.
  - apply iterates_cons in H as (s' & E & H). specialize (Hk s). rewrite (same_eq _ _ Hc), E in *. eexists. split; [reflexivity|]. cbn [calls]. lia.
Qed.
Theorem expansion_costs {I} (elements : I -> str) e : exists fuel n,
  try_collect_steps (expression_steps elements) fuel (expression_into e) = Some (collect_result (expand_expression elements e), n) /\
  n <= 416 * calls (expand_expression elements e) + 275 * node_count e + rereads (copied_builtin elements) e.
Proof.
  destruct (collect_cheap _ _ _ _ (expression_same elements) (expression_cheap elements) _ _ (expression_iterates elements e)) as (n & E & H).
  eexists _, n. split; [exact E|]. pose proof (expression_start elements e). lia.
Qed.
