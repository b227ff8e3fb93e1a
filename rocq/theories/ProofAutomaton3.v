(** The loops of a regex keep moving when it is simplified, so the automaton of what [Regex::new] compiles finds what
    [hir_captures] says. *)
From Verif Require Export ProofAutomaton2 ProofLanguage Compiled.
Require Import Lia PeanoNat.

Section Moving.
  Context (digits spaces words : ranges).
  Notation rm := (Regex.rm (in_ranges digits) (in_ranges spaces) (in_ranges words)).
  Notation moving_loops := (moving_loops (in_ranges digits) (in_ranges spaces) (in_ranges words)).
  Notation moving h := (moving_loops (unhir h)).

  Lemma moving_cat l : moving_loops (mk_cat l) <-> Forall moving_loops l.
  Proof.
    induction l as [|r [|r' l] IH]; [split; [constructor|easy]|split; [repeat constructor; assumption|now inversion 1]|].
    change (mk_cat (r :: r' :: l)) with (RCat r (mk_cat (r' :: l))). cbn [SpecAutomaton.moving_loops]. rewrite IH. split.
    - intros [H1 H2]. now constructor.
    - inversion 1; subst. now split.
  Qed.
  Lemma moving_alt l : moving_loops (ralt l) <-> Forall moving_loops l.
  Proof.
    induction l as [|r l IH]; [split; [constructor|easy]|].
    change (ralt (r :: l)) with (RAlt r (ralt l)). cbn [SpecAutomaton.moving_loops]. rewrite IH. split.
    - intros [H1 H2]. now constructor.
    - inversion 1; subst. now split.
  Qed.
  Lemma moving_lits t : moving_loops (mk_cat (map RLit t)).
  Proof. apply moving_cat, Forall_forall. intros r (c & <- & _)%in_map_iff. exact I. Qed.
  Lemma hcat_moving l : moving (HCat l) <-> Forall (fun h => moving h) l.
  Proof. cbn [unhir]. rewrite moving_cat. apply Forall_map. Qed.
  Lemma halt_moving l : moving (HAlt l) <-> Forall (fun h => moving h) l.
  Proof. cbn [unhir]. rewrite moving_alt. apply Forall_map. Qed.
  Lemma moving_literal t : moving (h_literal t).
  Proof. destruct t as [|c t]; [exact I|]. cbn [h_literal unhir]. apply moving_lits. Qed.
  Lemma moving_class k : moving (h_class k).
  Proof. unfold h_class. destruct k as [|[a b] [|x k]]; try exact I. destruct (a =? b); [apply moving_literal|exact I]. Qed.
  Lemma moving_flatten_cat l : Forall (fun h => moving h) l -> Forall (fun h => moving h) (flatten_cat l).
  Proof.
    induction 1 as [|h l Hh Hl IH]; [constructor|]. unfold flatten_cat in *. cbn [flat_map]. apply Forall_app. split; [|exact IH].
    destruct h; try (constructor; [exact Hh|constructor]); [constructor|now apply hcat_moving].
  Qed.
  Lemma moving_join l : Forall (fun h => moving h) l -> forall t, Forall (fun h => moving h) (join_literals t l).
  Proof.
    assert (Hf : forall t, Forall (fun h => moving h) (flush t)) by (intros [|c t]; repeat constructor; apply moving_lits).
    induction 1 as [|h l Hh Hl IH]; intros t; [apply Hf|].
    destruct h; cbn [join_literals]; try apply IH; (apply Forall_app; split; [apply Hf|constructor; [exact Hh|apply IH]]).
  Qed.
  Lemma moving_concat l : Forall (fun h => moving h) l -> moving (h_concat l).
  Proof.
    intros H. unfold h_concat. apply moving_flatten_cat in H. apply (fun H => moving_join _ H []) in H. destruct (join_literals [] (flatten_cat l)) as [|h [|h' l']].
    - exact I.
    - now inversion_clear H.
    - now apply hcat_moving.
  Qed.
  Lemma moving_flatten_alt l : Forall (fun h => moving h) l -> Forall (fun h => moving h) (flatten_alt l).
  Proof.
    induction 1 as [|h l Hh Hl IH]; [constructor|]. unfold flatten_alt in *. cbn [flat_map]. apply Forall_app. split; [|exact IH].
    destruct h; try (constructor; [exact Hh|constructor]). now apply halt_moving.
  Qed.
  Lemma moving_skipn n l : Forall (fun h => moving h) l -> Forall (fun h => moving h) (skipn n l).
  Proof. intros H. rewrite <- (firstn_skipn n l), Forall_app in H. apply H. Qed.
  Lemma moving_alternation fuel : forall l, Forall (fun h => moving h) l -> moving (h_alternation_ fuel l).
  Proof.
    induction fuel as [|fuel IH]; intros l Hl; apply moving_flatten_alt in Hl; cbn [h_alternation_]; revert Hl; generalize (flatten_alt l); clear l; intros l Hl;
      (destruct l as [|h1 [|h2 l]]; [exact I|now inversion_clear Hl|]); revert Hl; generalize (h1 :: h2 :: l); clear h1 h2 l; intros l Hl;
      (destruct (all_some as_char l); [apply moving_class|]); (destruct (all_some as_class l); [apply moving_class|]);
      (destruct (all_some as_concat l) as [cs|] eqn:E; [|now apply halt_moving]); apply all_some_concat in E as ->;
      (destruct cs as [|c cs]; [now apply halt_moving|]).
    - now apply halt_moving.
    - assert (Hd : exists d, c = fold_left common cs c ++ d) by (pose proof (common_all cs c) as H; now inversion H). destruct (fold_left common cs c) as [|p1 p']; [now apply halt_moving|]. revert Hd. generalize (p1 :: p'). clear p1 p'. intros p [d Hd].
      rewrite Forall_map in Hl. apply moving_concat, Forall_app. split.
      + inversion_clear Hl as [|? ? Hc Hcs]. apply hcat_moving in Hc. rewrite Hd in Hc. now apply Forall_app in Hc.
      + constructor; [|constructor]. apply IH. apply Forall_map. eapply Forall_impl; [|exact Hl]. cbv beta. intros x Hx. apply hcat_moving in Hx.
        apply moving_concat. now apply moving_skipn.
  Qed.
  Lemma moving_join_alts l : Forall (fun h => moving h) l -> moving (join_alts l).
  Proof. intros H. unfold join_alts. destruct l as [|h1 [|h2 l]]; [now apply moving_alternation|now inversion_clear H|now apply moving_alternation]. Qed.
  Lemma moving_repetition min max g h : moving_loops (RRep min max g (unhir h)) -> moving (h_repetition min max g h).
  Proof.
    intros [H1 H2]. unfold h_repetition.
    destruct (only_empty h).
    - match goal with |- context [if ?a && ?b then _ else _] => destruct (a && b) end; [exact I|].
      match goal with |- context [if ?a && ?b then _ else _] => destruct (a && b) end; [exact H1|].
      split; [exact H1|]. destruct max; discriminate.
    - match goal with |- context [if ?a && ?b then _ else _] => destruct (a && b) end; [exact I|].
      match goal with |- context [if ?a && ?b then _ else _] => destruct (a && b) end; [exact H1|].
      now split.
  Qed.

  Context (Htab : tables_ok digits spaces words).
  Lemma moving_branches r : re_ok r -> moving_loops r -> forall i, Forall (fun h => moving h) (fst (branches digits spaces words r i)).
  Proof.
    induction r as [|c| |k|l|min max g r IH|n r IH|a IHa b IHb|a IHa b IHb]; intros Hok Hm i; cbn [branches].
    - repeat constructor.
    - repeat constructor.
    - repeat constructor.
    - cbn [fst]. constructor; [apply moving_class|constructor].
    - repeat constructor.
    - destruct Hok as [Hr Hok]. destruct Hm as [Hm Hn]. specialize (IH Hok Hm i). pose proof (branches_any digits spaces words Htab r Hok i) as Ha.
      destruct (branches digits spaces words r i) as [l j]. cbn [fst] in *. apply weakly_join in Ha as (_ & Ht & _).
      constructor; [|constructor]. apply moving_repetition. split; [now apply moving_join_alts|]. intros Hmax p q c Hc.
      destruct (proj1 (Ht p [] q (Forall_nil _))) as [d Hd]; [now exists c|]. now apply (Hn Hmax p q d).
    - destruct Hok as [_ Hok]. specialize (IH Hok Hm (i + 1)). destruct (branches digits spaces words r (i + 1)) as [l j]. cbn [fst] in *.
      constructor; [|constructor]. cbn [unhir SpecAutomaton.moving_loops]. now apply moving_join_alts.
    - destruct Hok as [Ha Hb], Hm as [Ma Mb]. specialize (IHa Ha Ma i). destruct (branches digits spaces words a i) as [l j].
      specialize (IHb Hb Mb j). destruct (branches digits spaces words b j) as [m k]. cbn [fst] in *.
      constructor; [|constructor]. apply moving_concat. repeat constructor; now apply moving_join_alts.
    - destruct Hok as [Ha Hb], Hm as [Ma Mb]. specialize (IHa Ha Ma i). destruct (branches digits spaces words a i) as [l j].
      specialize (IHb Hb Mb j). destruct (branches digits spaces words b j) as [m k]. cbn [fst] in *.
      constructor; [now apply moving_join_alts|exact IHb].
  Qed.
  Lemma compiled_moving r : re_ok r -> moving_loops r -> moving_loops (compiled digits spaces words r).
  Proof. intros Hok Hm. unfold compiled, translate. apply moving_join_alts, moving_branches; assumption. Qed.
End Moving.
