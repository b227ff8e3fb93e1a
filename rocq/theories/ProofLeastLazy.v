(** At least one step for each call of the outermost [next]. *)
From Verif Require Export ProofLazySteps2.
Local Open Scope nat_scope.

Lemma collect_least {St I} (cnext : LazySteps.counted St (item I)) next : (forall s, fst (cnext s) = next s) -> (forall s, 1 <= snd (cnext s)) ->
  forall l s, iterates next s l -> forall fuel r n, try_collect_steps cnext fuel s = Some (r, n) -> calls l <= n.
Proof.
  intros Hsame Hone. induction l as [|[c|er] l IH]; intros s Hs [|fuel] r n E; try discriminate; cbn [try_collect_steps] in E;
    specialize (Hone s) as H1; specialize (Hsame s) as H2; destruct (cnext s) as [[x s'] k]; cbn [fst snd] in *.
  - apply iterates_nil in Hs as (s1 & Es & _). rewrite Es in H2. injection H2 as -> ->. injection E as <- <-. exact H1.
  - apply iterates_cons in Hs as (s1 & Es & Hs). rewrite Es in H2. injection H2 as -> ->.
    destruct (try_collect_steps cnext fuel s1) as [[[t|er] m]|] eqn:T; try discriminate; injection E as <- <-; specialize (IH s1 Hs fuel _ _ T); cbn [calls]; lia.
  - apply iterates_cons in Hs as (s1 & Es & Hs). rewrite Es in H2. injection H2 as -> ->. injection E as <- <-. exact H1.
Qed.
Lemma chain_one {S1 S2 A} (n1 : LazySteps.counted S1 A) (n2 : LazySteps.counted S2 A) s : 1 <= snd (chain_steps n1 n2 s).
Proof.
  destruct s as [a b]. unfold chain_steps. destruct (or_clear_steps n1 a) as [[[x|] a'] n]; cbn [snd]; [lia|]. destruct b as [t|]; [|cbn; lia].
  destruct (n2 t) as [[x t'] m]. cbn [snd]. lia.
Qed.
Theorem expansion_least {I} (elements : I -> str) digits spaces words to_string get e :
  (forall fuel r n, try_collect_steps (expression_steps elements) fuel (expression_into e) = Some (r, n) -> calls (expand_expression elements e) <= n) /\
  (forall fuel r n, try_collect_steps (expression_custom_steps elements digits spaces words to_string) fuel (expression_custom_into get e) = Some (r, n) ->
     calls (expand_expression_custom elements digits spaces words to_string get e) <= n).
Proof.
  split.
  - apply (collect_least _ (expression_next elements)); [apply expression_same|intros s; apply chain_one|apply expression_iterates].
  - apply (collect_least _ (expression_custom_next elements digits spaces words to_string)); [apply expression_custom_same|intros s; apply chain_one|apply expression_custom_iterates].
Qed.
