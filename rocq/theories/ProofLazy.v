(** The lazy iterators yield the lists of Expand.v and Params.v. *)
From Coq Require Import PeanoNat.
From Verif Require Export SpecLazy ProofIter ProofExpand.

Lemma once_iterates {A} (x : A) : iterates once_next (Some x) [x].
Proof.
  apply iterates_cons. exists None. split; [reflexivity|].
  apply (iterates_intro _ (fun s l => s = None /\ l = []) (fun s => s = None)); [split| |]; try easy.
  - intros s [-> _]. now exists None.
Qed.
Lemma map_iterates {St A B} (f : A -> B) (next : iter St A) s l : iterates next s l -> iterates (map_next f next) s (map f l).
Proof.
  intros H. apply (iterates_intro _ (fun s m => exists l, iterates next s l /\ m = map f l) (fun s => iterates next s [])).
  - split.
    + intros s' x m ([|y l'] & Hl & E); [easy|]. injection E as -> ->. apply iterates_cons in Hl as (s2 & E & Hl).
      exists s2. unfold map_next. rewrite E. eauto.
    + intros s' ([|y l'] & Hl & E); [|easy]. apply iterates_nil in Hl as (s2 & E2 & Hl). exists s2. unfold map_next. now rewrite E2.
  - intros s' Hs. now exists [].
  - eauto.
Qed.
Definition left_over {St A} (next : iter St A) (o : option St) (l : list A) : Prop :=
  match o with Some s => iterates next s l | None => l = [] end.
Lemma or_clear_cons {St A} (next : iter St A) o x l : left_over next o (x :: l) ->
  exists s, or_clear next o = (Some x, Some s) /\ iterates next s l.
Proof.
  destruct o as [s|]; cbn; [|easy]. intros H. apply iterates_cons in H as (s' & E & H). rewrite E. eauto.
Qed.
Lemma or_clear_nil {St A} (next : iter St A) o : left_over next o [] -> or_clear next o = (None, None).
Proof. destruct o as [s|]; cbn; [|easy]. intros H. apply iterates_nil in H as (s' & E & H). now rewrite E. Qed.

Lemma chain_iterates {S1 S2 A} (n1 : iter S1 A) (n2 : iter S2 A) a b l m : iterates n1 a l -> iterates n2 b m ->
  iterates (chain_next n1 n2) (chain a b) (l ++ m).
Proof.
  intros Ha Hb.
  apply (iterates_intro _ (fun '(o, q) k => exists l m, left_over n1 o l /\ left_over n2 q m /\ k = l ++ m)
           (fun '(o, q) => left_over n1 o [] /\ left_over n2 q [])).
  - split.
    + intros [o q] x k (l1 & m1 & Ho & Hq & E). cbn [chain_next]. destruct l1 as [|y l1].
      * rewrite (or_clear_nil _ _ Ho). cbn in E. subst m1. destruct q as [t|]; [|easy]. cbn in Hq.
        apply iterates_cons in Hq as (t' & Et & Ht). rewrite Et. eexists. split; [reflexivity|]. exists [], k. now cbn.
      * injection E as -> ->. apply or_clear_cons in Ho as (s & Es & Hs). rewrite Es. eexists. split; [reflexivity|].
        exists l1, m1. now cbn.
    + intros [o q] (l1 & m1 & Ho & Hq & E). symmetry in E. apply app_eq_nil in E as [-> ->]. cbn [chain_next].
      rewrite (or_clear_nil _ _ Ho). destruct q as [t|]; [|eexists; split; [reflexivity|now cbn]].
      cbn in Hq. apply iterates_nil in Hq as (t' & Et & Ht). rewrite Et. eexists. split; [reflexivity|]. now cbn.
  - intros [o q] [Ho Hq]. now exists [], [].
  - exists l, m. now cbn.
Qed.
Lemma either_left {S1 S2 A} (n1 : iter S1 A) (n2 : iter S2 A) a l : iterates n1 a l -> iterates (either_next n1 n2) (inl a) l.
Proof.
  intros H. apply (iterates_intro _ (fun s l => match s with inl a => iterates n1 a l | inr _ => False end)
                     (fun s => match s with inl a => iterates n1 a [] | inr _ => False end)); [split| |exact H].
  - intros [s|s] x k Hs; [|easy]. apply iterates_cons in Hs as (s' & E & Hs). cbn. rewrite E. eauto.
  - intros [s|s] Hs; [|easy]. apply iterates_nil in Hs as (s' & E & Hs). cbn. rewrite E. eauto.
  - easy.
Qed.
Lemma either_right {S1 S2 A} (n1 : iter S1 A) (n2 : iter S2 A) b l : iterates n2 b l -> iterates (either_next n1 n2) (inr b) l.
Proof.
  intros H. apply (iterates_intro _ (fun s l => match s with inr a => iterates n2 a l | inl _ => False end)
                     (fun s => match s with inr a => iterates n2 a [] | inl _ => False end)); [split| |exact H].
  - intros [s|s] x k Hs; [easy|]. apply iterates_cons in Hs as (s' & E & Hs). cbn. rewrite E. eauto.
  - intros [s|s] Hs; [easy|]. apply iterates_nil in Hs as (s' & E & Hs). cbn. rewrite E. eauto.
  - easy.
Qed.
Lemma zip_iterates {A B} (l : list A) (y : B) : iterates (zip_next list_next repeat_next) (l, y) (map (fun x => (x, y)) l).
Proof.
  apply (iterates_intro _ (fun s m => snd s = y /\ m = map (fun x => (x, y)) (fst s)) (fun s => snd s = y /\ fst s = [])); [split| |].
  - intros [[|a s] z] x m [E1 E2]; cbn in *; [easy|]. subst z. injection E2 as -> ->. now exists (s, y).
  - intros [[|a s] z] [E1 E2]; cbn in *; [|easy]. now exists ([], z).
  - intros [s z] [E1 E2]; cbn in *. now subst.
  - easy.
Qed.

Section Flat.
  Context {S1 S2 A B : Type} (outer : iter S1 A) (size : S1 -> nat) (f : A -> S2) (inner : iter S2 B).
  (** [good o l]: the outer iterator has [l] left, and knows so. *)
  Context (good : S1 -> list A -> Prop).
  Hypothesis good_cons : forall o x l, good o (x :: l) -> exists o', outer o = (Some x, o') /\ good o' l.
  Hypothesis good_nil : forall o, good o [] -> exists o', outer o = (None, o') /\ good o' [].
  Hypothesis good_size : forall o l, good o l -> (List.length l <= size o)%nat.
  Context (items : A -> list B).
  Hypothesis inner_good : forall a, iterates inner (f a) (items a).

  Definition outer_left (o : option S1) (l : list A) : Prop := match o with Some s => good s l | None => l = [] end.
  Definition FG (s : flat_mapped S1 S2) (k : list B) : Prop :=
    fm_back s = None /\ exists m l, left_over inner (fm_front s) m /\ outer_left (fm_iter s) l /\ k = m ++ flat_map items l.
  Lemma outer_cons o x l : outer_left o (x :: l) -> exists s, or_clear outer o = (Some x, Some s) /\ good s l.
  Proof. destruct o as [s|]; cbn; [|easy]. intros H. apply good_cons in H as (s' & E & H). rewrite E. eauto. Qed.
  Lemma outer_nil o : outer_left o [] -> or_clear outer o = (None, None).
  Proof. destruct o as [s|]; cbn; [|easy]. intros H. apply good_nil in H as (s' & E & H). now rewrite E. Qed.

  Lemma loop_spec l : forall fuel s m k, (List.length l < fuel)%nat ->
    fm_back s = None -> left_over inner (fm_front s) m -> outer_left (fm_iter s) l -> k = m ++ flat_map items l ->
    exists s', flat_map_loop outer f inner fuel s = Some (hd_error k, s') /\ FG s' (tl k).
  Proof.
    induction l as [|a l IH]; intros [|fuel] s m k Hf Hb Hm Hl Ek; try (cbn in Hf; lia); cbn [flat_map_loop].
    - destruct m as [|x m].
      + rewrite (or_clear_nil _ _ Hm), (outer_nil _ Hl), Hb. cbn in *. subst k. eexists. split; [reflexivity|].
        split; [reflexivity|]. exists [], []. now cbn.
      + apply or_clear_cons in Hm as (u & Eu & Hu). rewrite Eu. subst k. cbn. eexists. split; [reflexivity|].
        split; [exact Hb|]. exists m, []. now cbn.
    - destruct m as [|x m].
      + rewrite (or_clear_nil _ _ Hm). apply outer_cons in Hl as (o & Eo & Ho). rewrite Eo.
        apply (IH fuel _ (items a)); cbn in *; auto; try lia; apply inner_good.
      + apply or_clear_cons in Hm as (u & Eu & Hu). rewrite Eu. subst k. cbn. eexists. split; [reflexivity|].
        split; [exact Hb|]. exists m, (a :: l). now cbn.
  Qed.
  Lemma flat_next_spec s k : FG s k -> exists s', flat_map_next outer size f inner s = (hd_error k, s') /\ FG s' (tl k).
  Proof.
    intros (Hb & m & l & Hm & Hl & Ek). unfold flat_map_next.
    destruct (loop_spec l (2 + match fm_iter s with Some o => size o | None => 0 end) s m k) as (s' & E & H); auto.
    - destruct (fm_iter s) as [o|]; cbn in *; [apply good_size in Hl; lia|subst l; cbn; lia].
    - rewrite E. eauto.
  Qed.
  Lemma flat_map_iterates o l : good o l -> iterates (flat_map_next outer size f inner) (flat_map_new o) (flat_map items l).
  Proof.
    intros H. apply (iterates_intro _ FG (fun s => FG s [])).
    - split.
      + intros s x k Hs. apply flat_next_spec in Hs as (s' & E & Hs). eauto.
      + intros s Hs. apply flat_next_spec in Hs as (s' & E & Hs). eauto.
    - easy.
    - split; [reflexivity|]. exists [], l. now cbn.
  Qed.
End Flat.
Lemma flat_list_iterates {S2 A B} (f : A -> S2) (inner : iter S2 B) items l : (forall a, iterates inner (f a) (items a)) ->
  iterates (flat_map_next list_next (@List.length _) f inner) (flat_map_new l) (flat_map items l).
Proof.
  intros H. apply (flat_map_iterates list_next (@List.length _) f inner (fun o l => o = l)); try easy.
  - intros o x k ->. now exists k.
  - intros o ->. now exists [].
  - intros o k ->. lia.
Qed.

Section Expand.
  Context {I : Type} (elements : I -> str).
  Lemma escape_list t : iterates (escape_next list_next) (escape_new t) (escape_for_regex t).
  Proof. rewrite escape_for_regex_eq. apply escape_iterates, list_iterates. Qed.
  Lemma text_iterates t : iterates (@text_next I) (text_into elements t) (ok (escape_for_regex (elements t))).
  Proof. apply (map_iterates ok_char), escape_list. Qed.
  Lemma optional_iterates o : iterates (@optional_next I) (optional_into elements o) (expand_optional elements o).
  Proof.
    unfold expand_optional. rewrite app_assoc. apply (map_iterates ok_char). repeat apply chain_iterates; try apply list_iterates. apply escape_list.
  Qed.
  Lemma alternative_iterates a : iterates (@alternative_next I) (alternative_into elements a) (expand_alternative elements a).
  Proof. destruct a; [apply either_left, optional_iterates|apply either_right, text_iterates]. Qed.
  Lemma single_alternation_iterates b : iterates (single_alternation_next elements) (single_alternation_into b) (expand_single_alternation elements b).
  Proof. apply chain_iterates; [apply flat_list_iterates, alternative_iterates|apply once_iterates]. Qed.
  Lemma alternation_iterates a : iterates (alternation_next elements) (alternation_into a) (expand_alternation elements a).
  Proof.
    unfold expand_alternation. rewrite app_assoc. apply chain_iterates; [apply chain_iterates|apply once_iterates].
    - apply (map_iterates ok_char), list_iterates.
    - rewrite skip_last_eq. apply skip_last_iterates, flat_list_iterates, single_alternation_iterates.
  Qed.
  Lemma parameter_iterates p : iterates (@parameter_next I) (parameter_into elements p) (expand_parameter elements p).
  Proof.
    unfold parameter_into, expand_parameter.
    repeat match goal with |- context [if ?b then _ else _] => destruct b end;
      try (apply either_left, either_left, (map_iterates ok_char), list_iterates).
    - apply either_left, either_right, (map_iterates ok_char). rewrite owned_eq. apply owned_chars_iterates.
    - apply either_right, once_iterates.
  Qed.
  Lemma single_expression_iterates x : iterates (single_expression_next elements) (single_expression_into elements x) (expand_single elements x).
  Proof.
    destruct x.
    - apply either_left, alternation_iterates.
    - apply either_right, either_left, optional_iterates.
    - apply either_right, either_right, either_left, parameter_iterates.
    - apply either_right, either_right, either_right, text_iterates.
    - apply either_right, either_right, either_right, text_iterates.
  Qed.
  Theorem expression_iterates e : iterates (expression_next elements) (expression_into e) (expand_expression elements e).
  Proof.
    unfold expand_expression. rewrite app_assoc. apply chain_iterates; [apply chain_iterates|]; try apply once_iterates.
    apply flat_list_iterates, single_expression_iterates.
  Qed.

  Context (digits spaces words : ranges) (to_string : hir -> str).
  Lemma custom_iterates get p : iterates (@custom_next I) (custom_into elements digits spaces words to_string get p)
    (expand_custom elements digits spaces words to_string get p).
  Proof.
    unfold custom_into, expand_custom. destruct (get (par_input p)) as [v|]; [|apply either_right, either_left, parameter_iterates].
    assert (Hp : iterates (@custom_next I) (inr (inr (inr (chain (chain (Some (IOk (c_ "("))) v) (Some (IOk (c_ ")")))))))
                   (ok (s_ "(" ++ v ++ s_ ")"))).
    { apply either_right, either_right, either_right. rewrite app_assoc, !ok_app.
      apply chain_iterates; [apply chain_iterates|]; try apply once_iterates. apply (map_iterates ok_char), list_iterates. }
    destruct (contains v (c_ "(")); [|exact Hp].
    destruct (regex_new v); [|apply either_left, once_iterates|apply either_left, once_iterates].
    destruct (has_capture_groups _); [|exact Hp].
    apply either_right, either_right, either_left. rewrite app_assoc, !ok_app.
    apply chain_iterates; [apply chain_iterates|apply once_iterates]; apply (map_iterates ok_char); [apply list_iterates|].
    rewrite owned_eq. apply owned_chars_iterates.
  Qed.
  Lemma single_custom_iterates get x : iterates (single_custom_next elements) (single_custom_into elements digits spaces words to_string get x)
    (expand_single_custom elements digits spaces words to_string get x).
  Proof.
    destruct x; try (apply either_right; match goal with |- iterates _ (single_expression_into _ ?y) _ => exact (single_expression_iterates y) end).
    apply either_left, custom_iterates.
  Qed.
  Theorem expression_custom_iterates get e :
    iterates (expression_custom_next elements digits spaces words to_string) (expression_custom_into get e)
      (expand_expression_custom elements digits spaces words to_string get e).
  Proof.
    unfold expand_expression_custom. rewrite app_assoc. apply chain_iterates; [apply chain_iterates|]; try apply once_iterates.
    replace (flat_map (expand_single_custom elements digits spaces words to_string get) e)
      with (flat_map (fun '(x, g) => expand_single_custom elements digits spaces words to_string g x) (map (fun x => (x, get)) e))
      by (clear; induction e as [|x e IH]; cbn; congruence).
    apply (flat_map_iterates (zip_next list_next repeat_next) (fun s => List.length (fst s)) _ _
             (fun s l => snd s = get /\ l = map (fun x => (x, get)) (fst s))).
    - intros [[|x s] g] y l [E1 E2]; cbn in *; [easy|]. subst g. injection E2 as -> ->. now exists (s, get).
    - intros [[|x s] g] [E1 E2]; cbn in *; [|easy]. now exists ([], g).
    - intros [s g] l [E1 ->]. now rewrite map_length.
    - intros [x g]. apply single_custom_iterates.
    - easy.
  Qed.
End Expand.

(** ** Collecting *)
Lemma try_collect_spec {St I} (next : iter St (item I)) l : forall s fuel, iterates next s l -> (List.length l < fuel)%nat ->
  try_collect next fuel s = Some (collect_result l, calls l).
Proof.
  induction l as [|[c|e] l IH]; intros s [|fuel] H Hf; try (cbn in Hf; lia); cbn [try_collect].
  - apply iterates_nil in H as (s' & -> & _). reflexivity.
  - apply iterates_cons in H as (s' & -> & H). rewrite (IH s' fuel H) by (cbn in Hf; lia). cbn. now destruct (collect_result l).
  - apply iterates_cons in H as (s' & -> & H). reflexivity.
Qed.

Lemma collect_ok {I} (t : str) : collect_result (@ok I t) = inl t.
Proof. unfold ok. induction t as [|c t IH]; [reflexivity|]. cbn. now rewrite IH. Qed.
Lemma collect_err {I} (t : str) (er : param_error I) rest : collect_result (ok t ++ IErr er :: rest) = inr er.
Proof. unfold ok. induction t as [|c t IH]; [reflexivity|]. cbn. now rewrite IH. Qed.
Lemma calls_ok {I} (t : str) : calls (@ok I t) = S (List.length t).
Proof. unfold ok. induction t as [|c t IH]; [reflexivity|]. cbn. now rewrite IH. Qed.
Lemma calls_err {I} (t : str) (er : param_error I) rest : calls (ok t ++ IErr er :: rest) = S (List.length t).
Proof. unfold ok. induction t as [|c t IH]; [reflexivity|]. cbn. now rewrite IH. Qed.
Lemma collected {I} (l : list (item I)) t : collect_result l = inl t <-> l = ok t.
Proof.
  split; [|intros ->; apply collect_ok]. revert t. induction l as [|[c|e] l IH]; intros t; cbn.
  - now injection 1 as <-.
  - destruct (collect_result l) as [u|] eqn:E; [|easy]. injection 1 as <-. cbn. f_equal. now apply IH.
  - easy.
Qed.
Lemma failed {I} (l : list (item I)) er : collect_result l = inr er <-> exists t rest, l = ok t ++ IErr er :: rest.
Proof.
  split; [|intros (t & rest & ->); apply collect_err]. induction l as [|[c|e] l IH]; cbn.
  - easy.
  - destruct (collect_result l) as [u|] eqn:E; [easy|]. injection 1 as ->. destruct IH as (t & rest & ->); [reflexivity|].
    now exists (c :: t), rest.
  - injection 1 as ->. now exists [], l.
Qed.
(** The outcome and the number of calls, for any lazy iterator. *)
Theorem collect_lazily {St I} (next : iter St (item I)) s l fuel : iterates next s l -> (List.length l < fuel)%nat ->
  (forall t, collect_result l = inl t -> try_collect next fuel s = Some (inl t, S (List.length t))) /\
  (forall t er rest, l = ok t ++ IErr er :: rest -> try_collect next fuel s = Some (inr er, S (List.length t))).
Proof.
  intros H Hf. rewrite (try_collect_spec next l s fuel H Hf). split.
  - intros t E. rewrite E. apply collected in E. subst l. now rewrite calls_ok.
  - intros t er rest ->. now rewrite collect_err, calls_err.
Qed.
Theorem lazily {I} (elements : I -> str) digits spaces words to_string get e :
  (exists fuel, try_collect (expression_next elements) fuel (expression_into e) =
     Some (collect_result (expand_expression elements e), calls (expand_expression elements e))) /\
  (exists fuel, try_collect (expression_custom_next elements digits spaces words to_string) fuel (expression_custom_into get e) =
     Some (collect_result (expand_expression_custom elements digits spaces words to_string get e),
           calls (expand_expression_custom elements digits spaces words to_string get e))).
Proof.
  split; eexists; (eapply try_collect_spec; [|apply Nat.lt_succ_diag_r]); [apply expression_iterates|apply expression_custom_iterates].
Qed.
Theorem calls_meaning {I} (l : list (item I)) :
  (forall t, collect_result l = inl t -> calls l = S (List.length t)) /\
  (forall er, collect_result l = inr er -> exists t rest, l = ok t ++ IErr er :: rest /\ calls l = S (List.length t)).
Proof.
  split.
  - intros t E. apply collected in E as ->. apply calls_ok.
  - intros er E. apply failed in E as (t & rest & ->). exists t, rest. split; [reflexivity|apply calls_err].
Qed.

(** ** [OwnedChars] *)
Lemma nth_calls_eq s : forall n, nth_calls s n = (nth_error s n, S (Nat.min n (List.length s))).
Proof. induction s as [|c s IH]; intros [|n]; cbn; try reflexivity. now rewrite IH. Qed.
Lemma owned_next_same s : fst (owned_chars_next_calls s) = owned_chars_next s.
Proof. unfold owned_chars_next_calls, owned_chars_next. rewrite nth_calls_eq. now destruct (nth_error _ _). Qed.
Lemma owned_collect_from s : forall k, (k <= List.length s)%nat ->
  forall fuel, (List.length s - k < fuel)%nat ->
  exists n, owned_collect_calls fuel (mkOwnedChars s k) = Some (skipn k s, n) /\
    (2 * n + k * (k + 1) = (List.length s + 1) * (List.length s + 2))%nat.
Proof.
  intros k Hk. remember (List.length s - k)%nat as d eqn:Hd. revert k Hk Hd.
  induction d as [|d IH]; intros k Hk Hd [|fuel] Hf; try lia; cbn [owned_collect_calls]; unfold owned_chars_next_calls; cbn [oc_str oc_cur];
    rewrite nth_calls_eq.
  - assert (k = List.length s) by lia. subst k. rewrite (proj2 (nth_error_None s (List.length s)) (le_n _)).
    exists (S (List.length s)). split; [|nia]. rewrite Nat.min_id, skipn_all. reflexivity.
  - destruct (nth_error s k) as [c|] eqn:E; [|apply nth_error_None in E; lia].
    destruct (IH (S k)) with (fuel := fuel) as (n & En & Hn); try lia. rewrite En.
    replace (Nat.min k (List.length s)) with k by lia. exists (S k + n)%nat. split; [|nia].
    assert (Hs : skipn k s = c :: skipn (S k) s).
    { clear -E. revert s E. induction k as [|k IH]; intros [|x s] E; cbn in *; try easy; [now injection E as ->|].
      rewrite (IH s E). reflexivity. }
    now rewrite Hs.
Qed.
Theorem owned_quadratic s : exists n,
  owned_collect_calls (S (List.length s)) (owned_chars_new s) = Some (s, n) /\
  (2 * n = (List.length s + 1) * (List.length s + 2))%nat.
Proof.
  destruct (owned_collect_from s 0 (Nat.le_0_l _) (S (List.length s))) as (n & E & H); [lia|]. exists n. split; [exact E|lia].
Qed.
