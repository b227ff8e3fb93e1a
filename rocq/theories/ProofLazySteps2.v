(** The cost of the expansion, continued: custom parameters, from below, and parsed expressions. *)
From Coq Require Import PeanoNat.
From Verif Require Export ProofLazySteps ProofExpand3.
Local Open Scope nat_scope.

(** ** Custom parameters *)
Section Custom.
  Context {I : Type} (elements : I -> str) (digits spaces words : ranges) (to_string : hir -> str).
  Definition renamed_saved : option (option str * option owned_chars) * option (option (item I)) -> nat := fun '(a, b) =>
    saved_opt (fun '(c, d) => saved_opt none c + saved_opt owned_saved d) a + saved_opt none b.
  Definition plain_saved : option (option (option (item I)) * option str) * option (option (item I)) -> nat := fun '(a, b) =>
    saved_opt (fun '(c, d) => saved_opt none c + saved_opt none d) a + saved_opt none b.
  Definition custom_saved : @custom_iter I -> nat := fun s =>
    match s with
    | inl a => none a
    | inr t => match t with inl a => parameter_saved a | inr u => match u with inl a => renamed_saved a | inr b => plain_saved b end end
    end.
  Lemma custom_cheap : cheap false (@custom_steps I) custom_saved 10.
  Proof.
    apply (either_cheap false _ _ _ _ 9); [apply (cheap_more false _ _ 1); [lia|apply once_cheap]|].
    apply (either_cheap false _ _ _ _ 8); [apply (cheap_more false _ _ 4); [lia|apply parameter_cheap]|].
    apply (either_cheap false _ _ _ _ 7).
    - apply (chain_cheap false _ _ _ _ 5 1); [|apply once_cheap].
      apply (chain_cheap false _ _ _ _ 2 2); apply map_cheap; [apply list_cheap|apply owned_cheap].
    - apply (cheap_more false _ _ 6); [lia|]. apply (chain_cheap false _ _ _ _ 4 1); [|apply once_cheap].
      apply (chain_cheap false _ _ _ _ 1 2); [apply once_cheap|]. apply map_cheap, list_cheap.
  Qed.
  Definition single_custom_saved : @single_custom_iter I -> nat := fun s =>
    match s with inl a => custom_saved a | inr b => single_expression_saved elements b end.
  Lemma single_custom_cheap : cheap false (single_custom_steps elements) single_custom_saved 206.
  Proof.
    apply (either_cheap false _ _ _ _ 205); [|apply single_expression_cheap].
    apply (cheap_more false _ _ 10); [lia|apply custom_cheap].
  Qed.
  Definition into_custom : single_expression I * provider I -> single_custom_iter * nat :=
    fun '(x, get) => single_custom_into_steps elements digits spaces words to_string get x.
  Definition pairs_saved (s : expression I * provider I) : nat :=
    items_saved into_custom single_custom_saved 210 (map (fun x => (x, snd s)) (fst s)).
  Definition expression_custom_saved : @expression_custom_iter I -> nat := fun '(a, b) =>
    saved_opt (fun '(c, d) => saved_opt none c + saved_opt (flat_saved pairs_saved single_custom_saved) d) a + saved_opt none b.
  Lemma expression_custom_cheap : cheap false (expression_custom_steps elements digits spaces words to_string) expression_custom_saved 421.
  Proof.
    apply (chain_cheap false _ _ _ _ 419 1); [|apply once_cheap]. apply (chain_cheap false _ _ _ _ 1 417); [apply once_cheap|].
    apply (flat_cheap false _ _ _ _ pairs_saved single_custom_saved 4 206); [|apply single_custom_cheap].
    intros [[|x l] get]; cbn; [lia|]. split; [lia|]. unfold pairs_saved, items_saved. cbn [fst snd map add_up into_custom]. unfold into_custom, single_custom_into_steps. cbn [fst snd]. lia.
  Qed.
  Lemma custom_start get p : snd (custom_into_steps elements digits spaces words to_string get p) <= 69 /\
    custom_saved (custom_into elements digits spaces words to_string get p) <=
      match copied elements digits spaces words to_string get p with Some t => reread t | None => 0 end.
  Proof.
    unfold custom_into_steps, custom_into, copied. destruct (get (par_input p)) as [v|]; [|apply parameter_start].
    split; [cbn; lia|]. destruct (contains v (c_ "(")); [|cbn; unfold none; lia]. destruct (regex_new v); [|cbn; unfold none; lia|cbn; unfold none; lia].
    cbv zeta. destruct (has_capture_groups _); [|cbn; unfold none; lia]. unfold custom_saved, renamed_saved, chain. cbn [saved_opt].
    rewrite owned_new. unfold none. lia.
  Qed.
  Lemma single_custom_start get x :
    snd (into_custom (x, get)) + single_custom_saved (fst (into_custom (x, get))) + 210
    <= 279 * node_count_single x + match x with ExParameter p =>
         match copied elements digits spaces words to_string get p with Some t => reread t | None => 0 end | _ => 0 end.
  Proof.
    unfold into_custom, single_custom_into_steps. destruct x as [a|o|p|t|t]; cbn [fst snd single_custom_into single_custom_saved].
    - pose proof (single_start elements (ExAlternation a)) as H. unfold single_expression_into_steps in H. cbn [fst snd] in H.
      cbn [node_count_single] in *. lia.
    - pose proof (single_start elements (ExOptional o)) as H. unfold single_expression_into_steps in H. cbn [fst snd node_count_single] in *. lia.
    - pose proof (custom_start get p). cbn [node_count_single]. unfold custom_into_steps in *. cbn [fst snd] in *. lia.
    - pose proof (single_start elements (ExText t)) as H. unfold single_expression_into_steps in H. cbn [fst snd node_count_single] in *. lia.
    - pose proof (single_start elements (ExWhitespaces t)) as H. unfold single_expression_into_steps in H. cbn [fst snd node_count_single] in *. lia.
  Qed.
  Lemma expression_custom_start get e : expression_custom_saved (expression_custom_into get e) <=
    279 * node_count e + rereads (copied elements digits spaces words to_string get) e.
  Proof.
    unfold expression_custom_saved, expression_custom_into, chain, flat_map_new. cbn [saved_opt]. unfold flat_saved.
    cbn [fm_front fm_iter fm_back saved_opt]. unfold pairs_saved, items_saved, none. cbn [fst snd].
    induction e as [|x e IH]; [cbn; lia|]. cbn [map add_up node_count rereads]. pose proof (single_custom_start get x) as H. destruct x; lia.
  Qed.
  Theorem custom_expansion_costs get e : exists fuel n,
    try_collect_steps (expression_custom_steps elements digits spaces words to_string) fuel (expression_custom_into get e)
      = Some (collect_result (expand_expression_custom elements digits spaces words to_string get e), n) /\
    n <= 421 * calls (expand_expression_custom elements digits spaces words to_string get e) + 279 * node_count e
         + rereads (copied elements digits spaces words to_string get) e.
  Proof.
    destruct (collect_cheap _ _ _ _ (expression_custom_same elements digits spaces words to_string) expression_custom_cheap _ _
                (expression_custom_iterates elements digits spaces words to_string get e)) as (n & E & H).
    eexists _, n. split; [exact E|]. pose proof (expression_custom_start get e). lia.
  Qed.
End Custom.

(** ** From below *)
(** What is owed is paid by the end. *)
Definition dear {St A} (c : counted St A) (owed : St -> nat) : Prop := forall s,
  match c s with
  | ((Some _, s'), n) => owed s <= n + owed s'
  | ((None, s'), n) => owed s <= n
  end.
Lemma nothing_dear {St A} (c : counted St A) : dear c none.
Proof. intros s. unfold none. destruct (c s) as [[[x|] s'] n]; lia. Qed.
Lemma owned_dear : dear owned_chars_steps owned_saved.
Proof. intros s. pose proof (owned_turn s) as H. destruct (owned_chars_steps s) as [[[x|] s'] n]; lia. Qed.
Lemma map_dear {St A B} (f : A -> B) (c : counted St A) owed : dear c owed -> dear (map_steps f c) owed.
Proof. intros H s. specialize (H s). unfold map_steps. destruct (c s) as [[[x|] s'] n]; cbn; lia. Qed.
Lemma or_clear_dear {St A} (c : counted St A) owed : dear c owed -> dear (or_clear_steps c) (saved_opt owed).
Proof. intros H [s|]; cbn; [|lia]. specialize (H s). destruct (c s) as [[[x|] s'] n]; cbn; lia. Qed.
Lemma chain_dear {S1 S2 A} (c1 : counted S1 A) (c2 : counted S2 A) s1 s2 : dear c1 s1 -> dear c2 s2 ->
  dear (chain_steps c1 c2) (fun '(a, b) => saved_opt s1 a + saved_opt s2 b).
Proof.
  intros H1 H2 [a b]. unfold chain_steps. apply or_clear_dear in H1. specialize (H1 a).
  assert (Ha : forall x a' n, or_clear_steps c1 a = ((x, a'), n) -> x = None -> a' = None).
  { intros x a' n. unfold or_clear_steps. destruct a as [a|]; [|congruence]. destruct (c1 a) as [[[y|] s'] m]; congruence. }
  destruct (or_clear_steps c1 a) as [[[x|] a'] n]; [lia|]. specialize (Ha None a' n eq_refl eq_refl) as ->.
  destruct b as [t|]; [|cbn in *; lia]. specialize (H2 t). cbn [saved_opt]. destruct (c2 t) as [[[x|] t'] m]; cbn [saved_opt]; lia.
Qed.
Lemma either_dear {S1 S2 A} (c1 : counted S1 A) (c2 : counted S2 A) s1 s2 : dear c1 s1 -> dear c2 s2 ->
  dear (either_steps c1 c2) (fun s => match s with inl a => s1 a | inr b => s2 b end).
Proof.
  intros H1 H2 [s|s]; [specialize (H1 s)|specialize (H2 s)]; cbn;
    [destruct (c1 s) as [[[x|] s'] n]|destruct (c2 s) as [[[x|] s'] n]]; lia.
Qed.
Lemma flat_dear {S1 S2 A B} (co : counted S1 A) size (f : A -> S2 * nat) (ci : counted S2 B) so si :
  (forall o, match co o with
             | ((Some a, o'), n) => so o <= so o' + si (fst (f a)) /\ size o' < size o
             | ((None, o'), n) => so o = 0 end) ->
  dear ci si ->
  dear (flat_map_steps co size f ci) (flat_saved so si).
Proof.
  intros Ho Hi s. unfold flat_map_steps.
  enough (E : forall fuel s, match fm_iter s with Some o => size o | None => 0 end < fuel ->
              match flat_map_loop_steps co f ci fuel s with
              | Some ((Some x, s'), n) => flat_saved so si s <= n + flat_saved so si s'
              | Some ((None, s'), n) => flat_saved so si s <= n
              | None => False end).
  { specialize (E (2 + match fm_iter s with Some o => size o | None => 0 end) s ltac:(lia)).
    destruct (flat_map_loop_steps co f ci _ s) as [[[[x|] s'] n]|]; lia. }
  apply or_clear_dear in Hi. clear s.
  induction fuel as [|fuel IH]; intros [o u v] Hf; cbn [flat_map_loop_steps fm_front fm_iter fm_back] in *; [lia|].
  pose proof (Hi u) as H1. destruct (or_clear_steps ci u) as [[[x|] u'] n]; unfold flat_saved in *; cbn [fm_front fm_iter fm_back].
  - lia.
  - destruct o as [o|]; cbn [or_clear_steps].
    + specialize (Ho o). destruct (co o) as [[[a|] o'] m].
      * specialize (IH (mkFlat (Some o') (Some (fst (f a))) v)). cbn [fm_front fm_iter fm_back saved_opt] in *.
        specialize (IH ltac:(lia)). destruct (flat_map_loop_steps co f ci fuel _) as [[[[x|] s'] k]|]; [| |easy]; lia.
      * cbn [saved_opt]. pose proof (Hi v) as H2. destruct (or_clear_steps ci v) as [[[x|] v'] k]; cbn [fm_front fm_iter fm_back saved_opt] in *; lia.
    + cbn [saved_opt]. pose proof (Hi v) as H2. destruct (or_clear_steps ci v) as [[[x|] v'] k]; cbn [fm_front fm_iter fm_back saved_opt] in *; lia.
Qed.
Lemma collect_dear {St I} (c : counted St (item I)) owed next : same c next -> dear c owed ->
  forall t s, iterates next s (ok t) -> forall fuel r n,
  try_collect_steps c fuel s = Some (r, n) -> owed s <= n.
Proof.
  intros Hc Hd t. unfold ok. induction t as [|x t IH]; intros s H [|fuel] r n E; try easy; cbn [try_collect_steps map] in *.
  - apply iterates_nil in H as (s' & E' & H). specialize (Hd s). rewrite (same_eq _ _ Hc), E' in *. injection E as _ <-. exact Hd.
  - apply iterates_cons in H as (s' & E' & H). specialize (Hd s). rewrite (same_eq _ _ Hc), E' in *.
    destruct (try_collect_steps c fuel s') as [[[u|e] m]|] eqn:Em; [| |easy].
    + injection E as _ <-. specialize (IH s' H _ _ _ Em). lia.
    + injection E as _ <-. specialize (IH s' H _ _ _ Em). lia.
Qed.

Section Below.
  Context {I : Type} (elements : I -> str) (digits spaces words : ranges) (to_string : hir -> str).
  Lemma parameter_dear : dear (@parameter_steps I) parameter_saved.
  Proof.
    intros s. assert (H : dear (@parameter_steps I)
      (fun s => match s with inl a => match a with inl b => none b | inr b => owned_saved b end | inr b => none b end)).
    { apply either_dear; [|apply nothing_dear]. apply either_dear; apply map_dear; [apply nothing_dear|apply owned_dear]. }
    specialize (H s). unfold parameter_saved. destruct (parameter_steps s) as [[[x|] [[s'|s']|s']] n]; destruct s as [[s|s]|s]; exact H.
  Qed.
  Lemma custom_dear : dear (@custom_steps I) custom_saved.
  Proof.
    apply either_dear; [apply nothing_dear|]. apply either_dear; [apply parameter_dear|]. apply either_dear.
    - apply chain_dear; [|apply nothing_dear]. apply chain_dear; [apply nothing_dear|apply map_dear, owned_dear].
    - apply chain_dear; [|apply nothing_dear]. apply chain_dear; [apply nothing_dear|apply map_dear, nothing_dear].
  Qed.
  Definition single_owed : @single_expression_iter I -> nat := fun s =>
    match s with
    | inl a => none a
    | inr t => match t with inl a => none a | inr u => match u with inl a => parameter_saved a | inr b => none b end end
    end.
  Lemma single_dear : dear (single_expression_steps elements) single_owed.
  Proof.
    apply either_dear; [apply nothing_dear|]. apply either_dear; [apply nothing_dear|].
    apply either_dear; [apply parameter_dear|apply nothing_dear].
  Qed.
  Definition owed_all (l : expression I) : nat := add_up (map (fun x => single_owed (single_expression_into elements x)) l).
  Definition expression_owed : @expression_iter I -> nat := fun '(a, b) =>
    saved_opt (fun '(c, d) => saved_opt none c + saved_opt (flat_saved owed_all single_owed) d) a + saved_opt none b.
  Lemma expression_dear : dear (expression_steps elements) expression_owed.
  Proof.
    apply chain_dear; [|apply nothing_dear]. apply chain_dear; [apply nothing_dear|]. apply flat_dear; [|apply single_dear].
    intros [|x l]; cbn; [reflexivity|]. unfold owed_all. cbn. lia.
  Qed.
  Lemma parameter_owes p : parameter_saved (parameter_into elements p) =
    match copied_builtin elements p with Some t => reread t | None => 0 end.
  Proof.
    unfold parameter_into, copied_builtin, chars_eq.
    destruct (str_eqb (elements (par_input p)) (s_ "string")) eqn:E4.
    - apply str_eqb_eq in E4. rewrite E4. change (str_eqb (s_ "string") (s_ "int")) with false.
      change (str_eqb (s_ "string") (s_ "float")) with false. change (str_eqb (s_ "string") (s_ "word")) with false.
      cbv iota. cbn [parameter_saved]. apply owned_new.
    - repeat match goal with |- context [if ?b then _ else _] => destruct b end; reflexivity.
  Qed.
  Lemma expression_owes e : expression_owed (expression_into e) = rereads (copied_builtin elements) e.
  Proof.
    unfold expression_owed, expression_into, chain, flat_map_new. cbn [saved_opt]. unfold flat_saved.
    cbn [fm_front fm_iter fm_back saved_opt]. unfold owed_all, none.
    induction e as [|x e IH]; [reflexivity|]. cbn [map add_up rereads].
    destruct x as [a|o|p|t|t]; cbn [single_expression_into single_owed none]; rewrite ?parameter_owes; unfold none; lia.
  Qed.
  Theorem expansion_least e t : collect_result (expand_expression elements e) = inl t -> forall fuel r n,
    try_collect_steps (expression_steps elements) fuel (expression_into e) = Some (r, n) ->
    rereads (copied_builtin elements) e <= n.
  Proof.
    intros Ht fuel r n E. rewrite <- expression_owes. apply collected in Ht.
    apply (collect_dear _ _ _ (expression_same elements) expression_dear t _) with (fuel := fuel) (r := r); [|exact E].
    rewrite <- Ht. apply expression_iterates.
  Qed.

  Definition single_custom_owed : @single_custom_iter I -> nat := fun s =>
    match s with inl a => custom_saved a | inr b => none b end.
  Definition owed_pairs (s : expression I * provider I) : nat :=
    add_up (map (fun x => single_custom_owed (single_custom_into elements digits spaces words to_string (snd s) x)) (fst s)).
  Definition expression_custom_owed : @expression_custom_iter I -> nat := fun '(a, b) =>
    saved_opt (fun '(c, d) => saved_opt none c + saved_opt (flat_saved owed_pairs single_custom_owed) d) a + saved_opt none b.
  Lemma expression_custom_dear : dear (expression_custom_steps elements digits spaces words to_string) expression_custom_owed.
  Proof.
    apply chain_dear; [|apply nothing_dear]. apply chain_dear; [apply nothing_dear|].
    apply flat_dear; [|apply either_dear; [apply custom_dear|apply nothing_dear]].
    intros [[|x l] get]; cbn; [reflexivity|]. unfold owed_pairs. cbn. lia.
  Qed.
  Lemma custom_owes get p : custom_saved (custom_into elements digits spaces words to_string get p) =
    match copied elements digits spaces words to_string get p with Some t => reread t | None => 0 end.
  Proof.
    unfold custom_into, copied. destruct (get (par_input p)) as [v|]; [|apply parameter_owes].
    destruct (contains v (c_ "(")); [|reflexivity]. destruct (regex_new v); try reflexivity.
    cbv zeta. destruct (has_capture_groups _); [|reflexivity]. unfold custom_saved, renamed_saved, chain. cbn [saved_opt].
    rewrite owned_new. unfold none. lia.
  Qed.
  Lemma expression_custom_owes get e : expression_custom_owed (expression_custom_into get e) =
    rereads (copied elements digits spaces words to_string get) e.
  Proof.
    unfold expression_custom_owed, expression_custom_into, chain, flat_map_new. cbn [saved_opt]. unfold flat_saved.
    cbn [fm_front fm_iter fm_back saved_opt]. unfold owed_pairs, none. cbn [fst snd].
    induction e as [|x e IH]; [reflexivity|]. cbn [map add_up rereads].
    destruct x as [a|o|p|t|t]; cbn [single_custom_into single_custom_owed]; rewrite ?custom_owes; unfold none; lia.
  Qed.
  Theorem custom_expansion_least get e t :
    collect_result (expand_expression_custom elements digits spaces words to_string get e) = inl t -> forall fuel r n,
    try_collect_steps (expression_custom_steps elements digits spaces words to_string) fuel (expression_custom_into get e) = Some (r, n) ->
    rereads (copied elements digits spaces words to_string get) e <= n.
  Proof.
    intros Ht fuel r n E. rewrite <- expression_custom_owes. apply collected in Ht.
    apply (collect_dear _ _ _ (expression_custom_same elements digits spaces words to_string) expression_custom_dear t _)
      with (fuel := fuel) (r := r); [|exact E].
    rewrite <- Ht. apply expression_custom_iterates.
  Qed.
End Below.

(** ** Parsed expressions *)
Lemma branch_nodes b : Forall wf_alternative b -> List.length b <= List.length (src_branch b).
Proof.
  intros H. unfold src_branch. induction H as [|a b Ha H IH]; [cbn; lia|]. cbn [map List.concat List.length]. rewrite app_length.
  destruct a as [o|t]; cbn [src_alternative] in *; [rewrite !app_length; cbn [s_ List.length]; lia|].
  destruct Ha as [Ht _]. destruct t; [easy|]. cbn [List.length]. lia.
Qed.
Lemma single_nodes x : wf_single x -> node_count_single x <= 3 * List.length (src_single x).
Proof.
  destruct x as [a|o|p|t|t]; cbn [wf_single node_count_single src_single].
  - intros [Hl Hb]. assert (Ha : a <> []) by (destruct a; [cbn in Hl; lia|easy]).
    pose proof (join_length (s_ "/") (map src_branch a)) as Hj. rewrite map_length in Hj. change (List.length (s_ "/")) with 1 in Hj.
    specialize (Hj ltac:(destruct a; [easy|discriminate])).
    assert (H1 : List.length (List.concat a) <= List.length (List.concat (map src_branch a))).
    { clear - Hb. induction Hb as [|b a (Hb & _) H IH]; [cbn; lia|]. cbn [map List.concat]. rewrite !app_length.
      pose proof (branch_nodes b Hb). unfold single_alternation, alternation, str, char in *. lia. }
    assert (H2 : List.length a <= List.length (List.concat a)).
    { clear - Hb. induction Hb as [|b a (_ & Hb & _) H IH]; [cbn; lia|]. cbn [List.concat List.length]. rewrite !app_length.
      destruct b; [inversion Hb|]. cbn [List.length]. unfold single_alternation, alternation, str, char in *. lia. }
    unfold single_alternation, alternation, str, char in *. lia.
  - intros _. rewrite !app_length. cbn [s_ List.length]. lia.
  - intros _. rewrite !app_length. cbn [s_ List.length]. lia.
  - intros [H _]. destruct t; [easy|]. cbn [List.length]. lia.
  - intros [H _]. destruct t; [easy|]. cbn [List.length]. lia.
Qed.
Lemma nodes_map {I J} (f : I -> J) e : node_count (map_expression f e) = node_count e.
Proof.
  unfold map_expression. induction e as [|x e IH]; [reflexivity|]. cbn [map node_count]. rewrite IH. f_equal. destruct x; try reflexivity.
  cbn [map_single node_count_single]. unfold map_alternation. rewrite map_length, <- concat_map, map_length. reflexivity.
Qed.
Lemma nodes_source e : Forall wf_single e -> node_count e <= 3 * List.length (source e).
Proof.
  unfold source. induction 1 as [|x e Hx H IH]; [cbn; lia|]. cbn [node_count map List.concat]. rewrite app_length.
  pose proof (single_nodes x Hx). lia.
Qed.
Lemma triangle_value n : 2 * triangle n = n * (n + 1).
Proof. induction n as [|n IH]; cbn [triangle]; nia. Qed.
Lemma reread_value t : 2 * reread t = (List.length t + 1) * (List.length t + 2).
Proof. unfold reread. rewrite triangle_value. nia. Qed.
Lemma string_reread id : (id <= usize_max)%N -> reread (string_regex id) <= 57 * 115.
Proof.
  intros H. apply string_size in H. pose proof (reread_value (string_regex id)). nia.
Qed.
Definition copy_of (p : parameter span) : nat := match copied_builtin frag p with Some t => reread t | None => 0 end.
Lemma single_length x : wf_single (map_single frag x) ->
  (forall p, x = ExParameter p -> (par_id p <= usize_max)%N) ->
  List.length (expand_single frag x) <= 15 * List.length (src_single (map_single frag x)) /\
  match x with ExParameter p => copy_of p | _ => 0 end <= 820 * List.length (src_single (map_single frag x)).
Proof.
  intros Hw Hid.
  assert (Hok : (forall p, x = ExParameter p -> built_in (frag (par_input p))) ->
    List.length (expand_single frag x) <= 15 * List.length (src_single (map_single frag x))).
  { intros Hb. assert (E : expand_single frag x = ok (single_text frag (builtin_text frag) x)).
    { destruct x; try reflexivity; [apply expand_alternation_ok|]. apply expand_builtin. now apply Hb. }
    rewrite E. unfold ok. rewrite map_length. apply single_size; [exact Hw|]. intros p ->. split; [now apply Hb|now apply Hid]. }
  destruct x as [a|o|p|t|t].
  1, 2, 4, 5: split; [now apply Hok|lia].
  specialize (Hid p eq_refl). unfold copy_of, copied_builtin. cbn [map_single map_parameter src_single par_input] in *.
  rewrite !app_length. cbn [s_ List.length]. split.
  - destruct (in_dec (list_eq_dec N.eq_dec) (frag (par_input p)) [s_ "int"; s_ "float"; s_ "word"; s_ "string"; []]) as [Hb|Hb].
    + rewrite !app_length in Hok. apply Hok. intros q E. now injection E as <-.
    + cbn [expand_single]. assert (E : expand_parameter frag p = [IErr (NotFound (par_input p))]).
      { unfold expand_parameter, chars_eq. cbn [In] in Hb.
        repeat match goal with |- context [str_eqb ?a ?b] => let H := fresh in destruct (str_eqb a b) eqn:H;
          [apply str_eqb_eq in H; exfalso; apply Hb; rewrite H; tauto|] end. reflexivity. }
      rewrite E. cbn [List.length]. lia.
  - destruct (str_eqb _ _) eqn:E; [|lia]. apply str_eqb_eq in E. rewrite E. pose proof (string_reread _ Hid).
    cbn [s_ List.length]. lia.
Qed.
Theorem parsed_costs s e : addressable s -> expression_parse s = RetOk e -> exists fuel n,
  try_collect_steps (expression_steps frag) fuel (expression_into e) = Some (collect_result (expand_expression frag e), n) /\
  n <= 8 * 1000 * (List.length s + 1).
Proof.
  intros Hs Hp. destruct (expansion_costs frag e) as (fuel & n & E & Hn). exists fuel, n. split; [exact E|].
  destruct (parsed_wf s e Hs Hp) as [[Hw _] Hsrc].
  assert (Hids : forall p, In p (parameters e) -> (par_id p <= usize_max)%N).
  { intros p Hin. assert (Hi : In (par_id p) (ids e)) by (rewrite ids_parameters; now apply in_map).
    rewrite (ids_count s e Hs Hp) in Hi. apply count_from_upper in Hi.
    pose proof (ids_length frag e) as Hl. rewrite Hsrc in Hl. unfold addressable in Hs. lia. }
  assert (Hc : calls (expand_expression frag e) <= S (List.length (expand_expression frag e))).
  { generalize (expand_expression frag e). clear. induction l as [|[c|x] l IH]; cbn; lia. }
  assert (H3 : List.length (expand_expression frag e) = 2 + List.length (flat_map (expand_single frag) e)).
  { unfold expand_expression, ok. rewrite !app_length, !map_length. cbn [s_ List.length]. lia. }
  pose proof (nodes_source _ Hw) as H4. rewrite nodes_map, Hsrc in H4.
  assert (H5 : List.length (flat_map (expand_single frag) e) <= 15 * List.length s /\
               rereads (copied_builtin frag) e <= 820 * List.length s).
  { rewrite <- Hsrc. unfold source, map_expression in *. clear - Hw Hids.
    induction e as [|x e IH]; cbn [flat_map map List.concat rereads]; [cbn; lia|]. rewrite !app_length. inversion_clear Hw as [|? ? H1 H2].
    destruct (single_length x H1) as [Hx1 Hx2]. { intros p ->. apply Hids. now left. }
    destruct IH as [I1 I2]; [exact H2| |].
    { intros p Hin. apply Hids. change (x :: e) with ([x] ++ e). rewrite parameters_app. apply in_or_app. auto. }
    unfold copy_of in Hx2. destruct x; lia. }
  lia.
Qed.

Theorem renamed_costs {I} (elements : I -> str) digits spaces words to_string get p v c : get (par_input p) = Some v ->
  copied elements digits spaces words to_string get p = Some c -> exists fuel t n,
  try_collect_steps (expression_custom_steps elements digits spaces words to_string) fuel (expression_custom_into get [ExParameter p])
    = Some (inl t, n) /\
  t = s_ "^(?:" ++ c ++ s_ ")$" /\ (List.length c + 1) * (List.length c + 2) <= 2 * n.
Proof.
  intros Hv Hc. destruct (custom_expansion_costs elements digits spaces words to_string get [ExParameter p]) as (fuel & n & E & _).
  assert (Ht : expand_expression_custom elements digits spaces words to_string get [ExParameter p] = ok (s_ "^(?:" ++ c ++ s_ ")$")).
  { unfold expand_expression_custom. cbn [flat_map expand_single_custom]. unfold expand_custom. unfold copied in Hc. rewrite Hv in *.
    destruct (contains v (c_ "(")); [|easy]. destruct (regex_new v); try easy. destruct (has_capture_groups _); [|easy].
    injection Hc as <-. rewrite owned_eq, app_nil_r, <- !ok_app. f_equal. cbn [s_ app]. rewrite <- app_assoc. reflexivity. }
  rewrite Ht, collect_ok in E. exists fuel, (s_ "^(?:" ++ c ++ s_ ")$"), n. split; [exact E|]. split; [reflexivity|].
  pose proof (custom_expansion_least elements digits spaces words to_string get [ExParameter p] (s_ "^(?:" ++ c ++ s_ ")$")
    ltac:(rewrite Ht; apply collect_ok) fuel _ n E) as H.
  cbn [rereads] in H. rewrite Hc in H. pose proof (reread_value c). lia.
Qed.
Lemma collect_more {St I} (c : counted St (item I)) fuel : forall fuel' s r, fuel <= fuel' ->
  try_collect_steps c fuel s = Some r -> try_collect_steps c fuel' s = Some r.
Proof.
  induction fuel as [|fuel IH]; intros [|fuel'] s r Hf; try lia; [easy|easy|]. cbn [try_collect_steps].
  destruct (c s) as [[[[x|e]|] s'] n]; try easy. destruct (try_collect_steps c fuel s') as [r'|] eqn:E; [|easy].
  now rewrite (IH fuel' s' r' ltac:(lia) E).
Qed.
Theorem builtin_both {I} (elements : I -> str) e : exists fuel0 n,
  (forall fuel, fuel0 <= fuel ->
     try_collect_steps (expression_steps elements) fuel (expression_into e) = Some (collect_result (expand_expression elements e), n)) /\
  n <= 416 * calls (expand_expression elements e) + 275 * node_count e + rereads (copied_builtin elements) e /\
  ((exists t, collect_result (expand_expression elements e) = inl t) -> rereads (copied_builtin elements) e <= n).
Proof.
  destruct (expansion_costs elements e) as (fuel & n & E & H). exists fuel, n. split; [|split; [exact H|]].
  - intros fuel' Hf. exact (collect_more _ _ _ _ _ Hf E).
  - intros (t & Ht). exact (expansion_least elements e t Ht _ _ _ E).
Qed.
Theorem custom_both {I} (elements : I -> str) digits spaces words to_string get e : exists fuel0 n,
  (forall fuel, fuel0 <= fuel ->
     try_collect_steps (expression_custom_steps elements digits spaces words to_string) fuel (expression_custom_into get e)
     = Some (collect_result (expand_expression_custom elements digits spaces words to_string get e), n)) /\
  n <= 421 * calls (expand_expression_custom elements digits spaces words to_string get e) + 279 * node_count e
       + rereads (copied elements digits spaces words to_string get) e /\
  ((exists t, collect_result (expand_expression_custom elements digits spaces words to_string get e) = inl t) ->
   rereads (copied elements digits spaces words to_string get) e <= n).
Proof.
  destruct (custom_expansion_costs elements digits spaces words to_string get e) as (fuel & n & E & H). exists fuel, n.
  split; [|split; [exact H|]].
  - intros fuel' Hf. exact (collect_more _ _ _ _ _ Hf E).
  - intros (t & Ht). exact (custom_expansion_least elements digits spaces words to_string get e t Ht _ _ _ E).
Qed.
Theorem parsed_linear s e : addressable s -> expression_parse s = RetOk e -> exists fuel0 n,
  (forall fuel, fuel0 <= fuel ->
     try_collect_steps (expression_steps frag) fuel (expression_into e) = Some (collect_result (expand_expression frag e), n)) /\
  n <= 8 * 1000 * (List.length s + 1).
Proof.
  intros Hs Hp. destruct (parsed_costs s e Hs Hp) as (fuel & n & E & H). exists fuel, n. split; [|exact H].
  intros fuel' Hf. exact (collect_more _ _ _ _ _ Hf E).
Qed.
Theorem renamed_quadratic {I} (elements : I -> str) digits spaces words to_string get p v c : get (par_input p) = Some v ->
  copied elements digits spaces words to_string get p = Some c -> exists fuel0 n,
  (forall fuel, fuel0 <= fuel ->
     try_collect_steps (expression_custom_steps elements digits spaces words to_string) fuel (expression_custom_into get [ExParameter p])
     = Some (inl (s_ "^(?:" ++ c ++ s_ ")$"), n)) /\
  (List.length c + 1) * (List.length c + 2) <= 2 * n.
Proof.
  intros Hv Hc. destruct (renamed_costs elements digits spaces words to_string get p v c Hv Hc) as (fuel & t & n & E & -> & H).
  exists fuel, n. split; [|exact H]. intros fuel' Hf. exact (collect_more _ _ _ _ _ Hf E).
Qed.
