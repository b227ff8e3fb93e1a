(** The iterators, for every inner iterator. *)
From Coq Require Import PeanoNat.
From Verif Require Export SpecIter.

(** ** Finite iterators, coinductively *)
Section Behaves.
  Context {St A : Type} (next : iter St A).
  Lemma finishes_cons s x l : finishes next s (x :: l) <->
    exists s', next s = (Some x, s') /\ finishes next s' l.
  Proof.
    unfold finishes. cbn [List.length outputs map app]. destruct (next s) as [o s'] eqn:E. split.
    - intros H. injection H as -> H. eauto.
    - intros (s'' & H & H'). injection H as -> <-. now rewrite H'.
  Qed.
  Lemma finishes_nil s : finishes next s [] <-> exists s', next s = (None, s').
  Proof.
    unfold finishes. cbn. destruct (next s) as [o s'] eqn:E. split.
    - intros H. injection H as ->. eauto.
    - intros (s'' & H). now injection H as -> _.
  Qed.
  Lemma iterates_cons s x l : iterates next s (x :: l) <->
    exists s', next s = (Some x, s') /\ iterates next s' l.
  Proof.
    unfold iterates. destruct (next s) as [o s'] eqn:E. split.
    - intros H. pose proof (H 1%nat) as H1. cbn in H1. rewrite E in H1. injection H1 as ->.
      exists s'. split; [reflexivity|]. intros n. specialize (H (S n)). cbn in H. rewrite E in H.
      injection H as H. rewrite H. rewrite !firstn_app. f_equal.
      rewrite map_length. destruct (Nat.le_gt_cases (List.length l) n) as [Hl|Hl].
      + assert (Hr : forall k m (y : option A), (k <= m)%nat -> firstn k (repeat y m) = repeat y k).
        { clear. induction k; intros [|m] y H; cbn; try lia; [reflexivity..|]. f_equal. apply IHk. lia. }
        change (None :: repeat None n) with (repeat (@None A) (S n)). rewrite !Hr by lia. reflexivity.
      + replace (n - List.length l)%nat with 0%nat by lia. reflexivity.
    - intros (s'' & H & H'). injection H as -> <-. intros [|n]; [reflexivity|].
      cbn. rewrite E. f_equal. rewrite H'. rewrite !firstn_app. f_equal.
      rewrite map_length. destruct (Nat.le_gt_cases (List.length l) n) as [Hl|Hl].
      + assert (Hr : forall k m (y : option A), (k <= m)%nat -> firstn k (repeat y m) = repeat y k).
        { clear. induction k; intros [|m] y H; cbn; try lia; [reflexivity..|]. f_equal. apply IHk. lia. }
        change (None :: repeat None n) with (repeat (@None A) (S n)). rewrite !Hr by lia. reflexivity.
      + replace (n - List.length l)%nat with 0%nat by lia. reflexivity.
  Qed.
  Lemma firstn_repeat {B} (y : B) n : firstn n (repeat y n) = repeat y n.
  Proof. induction n; cbn; congruence. Qed.
  Lemma iterates_nil s : iterates next s [] <->
    exists s', next s = (None, s') /\ iterates next s' [].
  Proof.
    unfold iterates. cbn. destruct (next s) as [o s'] eqn:E. split.
    - intros H. pose proof (H 1%nat) as H1. cbn in H1. rewrite E in H1. injection H1 as ->.
      exists s'. split; [reflexivity|]. intros n. specialize (H (S n)). cbn in H. rewrite E in H.
      now injection H.
    - intros (s'' & H & H') [|n]; [reflexivity|]. cbn. rewrite E. injection H as -> <-.
      now rewrite H'.
  Qed.

  (** [G s l]: the iterator has the items [l] to yield; [E s]: it has finished. *)
  Definition behaves (G : St -> list A -> Prop) (E : St -> Prop) : Prop :=
    (forall s x l, G s (x :: l) -> exists s', next s = (Some x, s') /\ G s' l) /\
    (forall s, G s [] -> exists s', next s = (None, s') /\ E s').
  Lemma behaves_finishes : behaves (finishes next) (fun _ => True).
  Proof.
    split; intros *.
    - now rewrite finishes_cons.
    - rewrite finishes_nil. intros [s' H]. eauto.
  Qed.
  Lemma behaves_iterates : behaves (iterates next) (fun s => iterates next s []).
  Proof. split; intros *; [now rewrite iterates_cons|now rewrite iterates_nil]. Qed.
  Lemma finishes_intro G E s l : behaves G E -> G s l -> finishes next s l.
  Proof.
    intros [H1 H2]. revert s. induction l as [|x l IH]; intros s H.
    - apply finishes_nil. destruct (H2 s H) as (s' & Hs & _). eauto.
    - apply finishes_cons. destruct (H1 s x l H) as (s' & Hs & Hg). eauto.
  Qed.
  Lemma iterates_intro G E s l : behaves G E -> (forall s, E s -> G s []) -> G s l -> iterates next s l.
  Proof.
    intros [H1 H2] HE. assert (Hnil : forall n s, G s [] -> outputs next n s = repeat None n).
    { induction n; intros s' H; [reflexivity|]. cbn. destruct (H2 s' H) as (s'' & Hs & He).
      rewrite Hs. rewrite IHn; auto. }
    revert s. induction l as [|x l IH]; intros s H.
    - intros n. cbn. rewrite firstn_repeat. now apply Hnil.
    - apply iterates_cons. destruct (H1 s x l H) as (s' & Hs & Hg). eauto.
  Qed.
End Behaves.

(** ** [Peekable] *)
Section Peek.
  Context {St A : Type} (next : iter St A) (G : St -> list A -> Prop) (E : St -> Prop).
  Hypothesis HG : behaves next G E.
  Definition PG (p : peekable St A) (l : list A) : Prop :=
    match pk_peeked p with
    | None => G (pk_iter p) l
    | Some (Some x) => exists l', l = x :: l' /\ G (pk_iter p) l'
    | Some None => l = [] /\ E (pk_iter p)
    end.
  Definition PE (p : peekable St A) : Prop := pk_peeked p = None /\ E (pk_iter p).
  Lemma peekable_behaves : behaves (peekable_next next) PG PE.
  Proof.
    destruct HG as [H1 H2]. unfold PG, PE, peekable_next. split.
    - intros [[[y|]|] s] x l; cbn.
      + intros (l' & E1 & Hg). injection E1 as <- <-. eauto.
      + intros [? _]; easy.
      + intros Hg. destruct (H1 _ _ _ Hg) as (s' & -> & Hg'). eauto.
    - intros [[[y|]|] s]; cbn.
      + intros (l' & E1 & Hg). easy.
      + intros [_ He]. eauto.
      + intros Hg. destruct (H2 _ Hg) as (s' & -> & Hg'). eauto.
  Qed.
  Lemma peek_spec p l : PG p l -> exists p', peekable_peek next p = (hd_error l, p') /\ PG p' l.
  Proof.
    destruct HG as [H1 H2]. unfold PG, peekable_peek. destruct p as [[[y|]|] s]; cbn.
    - intros (l' & -> & Hg). cbn. eexists. split; [reflexivity|]. cbn. eauto.
    - intros [-> He]. cbn. eexists. split; [reflexivity|]. cbn. eauto.
    - intros Hg. destruct l as [|x l].
      + destruct (H2 _ Hg) as (s' & -> & Hg'). eexists. split; [reflexivity|]. cbn. eauto.
      + destruct (H1 _ _ _ Hg) as (s' & -> & Hg'). eexists. split; [reflexivity|]. cbn. eauto.
  Qed.

  (** ** [SkipLast] *)
  Definition SG (p : peekable St A) (l' : list A) : Prop := exists l, PG p l /\ l' = removelast l.
  Definition SE (p : peekable St A) : Prop := (forall s, E s -> G s []) -> SG p [].
  Lemma skip_last_behaves : behaves (skip_last_next next) SG SE.
  Proof.
    pose proof peekable_behaves as [H1 H2]. unfold skip_last_next. split.
    - intros p x l' (l & Hp & Hl). destruct l as [|y [|z l]]; cbn in Hl; [easy..|].
      injection Hl as <- ->. destruct (H1 p x (z :: l) Hp) as (p1 & -> & Hp1).
      destruct (peek_spec p1 _ Hp1) as (p2 & -> & Hp2). cbn. exists p2. split; [reflexivity|].
      exists (z :: l). split; [assumption|]. reflexivity.
    - intros p (l & Hp & Hl). destruct l as [|y [|z l]]; cbn in Hl; [|clear Hl|easy].
      + destruct (H2 p Hp) as (p1 & -> & Hpk & He). destruct (peekable_peek next p1) as [o p2] eqn:Ep.
        exists p2. split; [now destruct o|]. intros HE. exists []. split; [|reflexivity].
        assert (Hp1 : PG p1 []) by (unfold PG; rewrite Hpk; auto).
        destruct (peek_spec p1 _ Hp1) as (p3 & E3 & Hp3). rewrite E3 in Ep. now injection Ep as <- <-.
      + destruct (H1 p y [] Hp) as (p1 & -> & Hp1).
        destruct (peek_spec p1 _ Hp1) as (p2 & -> & Hp2). cbn. exists p2. split; [reflexivity|].
        intros _. exists []. auto.
  Qed.
End Peek.

Lemma skip_last_iterates {St A} (next : iter St A) s l :
  iterates next s l -> iterates (skip_last_next next) (skip_last_new s) (removelast l).
Proof.
  intros H. eapply iterates_intro; [apply skip_last_behaves, behaves_iterates| |].
  - intros p Hp. apply Hp. auto.
  - exists l. split; [exact H|reflexivity].
Qed.
Lemma skip_last_finishes {St A} (next : iter St A) s l :
  finishes next s l -> finishes (skip_last_next next) (skip_last_new s) (removelast l).
Proof.
  intros H. eapply finishes_intro; [apply skip_last_behaves, behaves_finishes|].
  exists l. split; [exact H|reflexivity].
Qed.

(** ** [OwnedChars] *)
Lemma owned_chars_iterates s : iterates owned_chars_next (owned_chars_new s) s.
Proof.
  apply (iterates_intro _ (fun st l => oc_str st = s /\ l = skipn (oc_cur st) s)
           (fun st => oc_str st = s /\ [] = skipn (oc_cur st) s)).
  - split.
    + intros [t n] x l [E1 E2]; cbn in *. subst t. unfold owned_chars_next. cbn.
      assert (Hn : nth_error s n = Some x /\ skipn (S n) s = l).
      { clear -E2. revert s E2. induction n as [|n IH]; intros [|c s] E2; cbn in *; try easy.
        - now injection E2 as -> ->.
        - now apply IH. }
      destruct Hn as [-> <-]. eexists. split; [reflexivity|]. cbn. auto.
    + intros [t n] [E1 E2]; cbn in *. subst t. unfold owned_chars_next. cbn.
      assert (Hn : nth_error s n = None).
      { clear -E2. revert s E2. induction n as [|n IH]; intros [|c s] E2; cbn in *; try easy.
        now apply IH. }
      rewrite Hn. eexists. split; [reflexivity|]. auto.
  - auto.
  - split; reflexivity.
Qed.

(** ** [EscapeForRegex] *)
Lemma should_be_escaped_iff c : should_be_escaped c = true <-> In c regex_special.
Proof.
  unfold should_be_escaped, regex_special. generalize (s_ "^$[]()\{}.|?*+") as l.
  induction l as [|d l IH]; cbn; [easy|]. rewrite orb_true_iff, N.eqb_eq, IH. intuition.
Qed.
Lemma quote_eq c : quote c = if should_be_escaped c then [c_ "\"; c] else [c].
Proof.
  unfold quote. destruct (in_dec N.eq_dec c regex_special) as [H|H]; rewrite <- should_be_escaped_iff in H.
  - now rewrite H.
  - now destruct (should_be_escaped c).
Qed.
Section EscapeProof.
  Context {St : Type} (next : iter St char) (G : St -> list char -> Prop) (E : St -> Prop).
  Hypothesis HG : behaves next G E.
  Definition EG (s : escaper St) (l' : list char) : Prop :=
    exists l, PG G E (es_iter s) l /\
      l' = match es_was_escaped s with Some c => [c] | None => [] end ++ flat_map quote (unescape l).
  Definition EE (s : escaper St) : Prop := (forall s, E s -> G s []) -> EG s [].
  (** Whatever the inner iterator does, two turns are enough. *)
  Lemma escape_loop_enough it : escape_loop next 2 it <> None.
  Proof.
    cbn [escape_loop]. destruct (peekable_next next it) as [[c|] it1] eqn:E1; [|easy].
    destruct (c =? c_ "\"); [|now destruct (should_be_escaped c)].
    destruct (peekable_peek next it1) as [[d|] it2] eqn:E2; [|easy].
    destruct (should_be_escaped d) eqn:Ed; [now destruct (peekable_next next it2)|].
    assert (E3 : exists it3, peekable_next next it2 = (Some d, it3)).
    { unfold peekable_peek in E2. unfold peekable_next. destruct (pk_peeked it1) as [v|] eqn:Ev.
      - injection E2 as -> <-. rewrite Ev. eauto.
      - destruct (next (pk_iter it1)) as [v s]. injection E2 as -> <-. cbn. eauto. }
    destruct E3 as [it3 ->]. destruct (N.eqb_spec d (c_ "\")) as [->|]; [easy|].
    now rewrite Ed.
  Qed.
  Lemma escape_next_spec it l : PG G E it l ->
    exists s', escape_next next (mkEscaper it None) = (hd_error (flat_map quote (unescape l)), s') /\
      match flat_map quote (unescape l) with [] => EE s' | _ :: l' => EG s' l' end.
  Proof.
    pose proof (peekable_behaves next G E HG) as [H1 H2]. pose proof (peek_spec next G E HG) as H3.
    unfold escape_next. cbn [es_was_escaped es_iter]. intros Hl.
    (* a plain char *)
    assert (Hplain : forall it c l k, PG G E it (c :: l) -> (c =? c_ "\") = false ->
      exists it1 w, escape_loop next (S k) it = Some (hd_error (quote c), mkEscaper it1 w) /\
        PG G E it1 l /\ match w with Some c => [c] | None => [] end = tl (quote c)).
    { clear it l Hl. intros it c l k Hp Hc. destruct (H1 it c l Hp) as (it1 & E1 & Hp1).
      cbn [escape_loop]. rewrite E1, Hc, quote_eq. destruct (should_be_escaped c); eauto 10. }
    destruct l as [|c l].
    - destruct (H2 it Hl) as (it1 & E1 & [Hpk He]). cbn [escape_loop]. rewrite E1. cbn.
      eexists. split; [reflexivity|]. intros HE. exists []. split; [|reflexivity].
      unfold PG. cbn. rewrite Hpk. auto.
    - destruct (c =? c_ "\") eqn:Ec.
      + destruct (H1 it c l Hl) as (it1 & E1 & Hp1). cbn [escape_loop]. rewrite E1, Ec.
        apply N.eqb_eq in Ec. subst c. destruct (H3 it1 l Hp1) as (it2 & E2 & Hp2). rewrite E2.
        destruct l as [|d l]; cbn [hd_error].
        * cbn. eexists. split; [reflexivity|]. intros HE. exists []. split; [exact Hp2|reflexivity].
        * change (unescape (c_ "\" :: d :: l)) with (d :: unescape l).
          destruct (should_be_escaped d) eqn:Ed.
          -- destruct (H1 it2 d l Hp2) as (it3 & E3 & Hp3). rewrite E3.
             cbn [flat_map]. rewrite quote_eq, Ed. cbn [app hd_error]. eexists. split; [reflexivity|].
             exists l. split; [exact Hp3|reflexivity].
          -- assert (Hd : (d =? c_ "\") = false).
             { destruct (N.eqb_spec d (c_ "\")) as [->|]; [easy|reflexivity]. }
             destruct (Hplain it2 d l 0%nat Hp2 Hd) as (it3 & w & E3 & Hp3 & Hw).
             cbn [escape_loop] in E3. rewrite E3. cbn [flat_map].
             destruct (quote d) as [|q1 q2] eqn:Eq; [exfalso; rewrite quote_eq in Eq; now destruct (should_be_escaped d)|].
             cbn [app hd_error]. eexists. split; [reflexivity|]. exists l. split; [exact Hp3|].
             cbn [es_was_escaped]. rewrite Hw. reflexivity.
      + destruct (Hplain it c l 1%nat Hl Ec) as (it1 & w & E1 & Hp1 & Hw). rewrite E1.
        assert (Hu : unescape (c :: l) = c :: unescape l).
        { cbn [unescape]. apply N.eqb_neq in Ec. now destruct (N.eq_dec c (c_ "\")). }
        rewrite Hu. cbn [flat_map].
        destruct (quote c) as [|q1 q2] eqn:Eq; [exfalso; rewrite quote_eq in Eq; now destruct (should_be_escaped c)|].
        cbn [app hd_error]. eexists. split; [reflexivity|]. exists l. split; [exact Hp1|].
        cbn [es_was_escaped]. rewrite Hw. reflexivity.
  Qed.
  Lemma escape_behaves : behaves (escape_next next) EG EE.
  Proof.
    split.
    - intros [it [w|]] x l' (l & Hp & Hl); cbn [es_iter es_was_escaped] in *.
      + injection Hl as -> ->. cbn. eexists. split; [reflexivity|]. exists l. auto.
      + destruct (escape_next_spec it l Hp) as (s' & E1 & Hs). cbn [app] in Hl. rewrite <- Hl in *. eauto.
    - intros [it [w|]] (l & Hp & Hl); cbn [es_iter es_was_escaped] in *; [easy|].
      destruct (escape_next_spec it l Hp) as (s' & E1 & Hs). cbn [app] in Hl. rewrite <- Hl in *. eauto.
  Qed.
End EscapeProof.
Lemma escape_iterates {St} (next : iter St char) s l :
  iterates next s l -> iterates (escape_next next) (escape_new s) (flat_map quote (unescape l)).
Proof.
  intros H. eapply iterates_intro; [apply escape_behaves, behaves_iterates| |].
  - intros p Hp. apply Hp. auto.
  - exists l. split; [exact H|reflexivity].
Qed.
Lemma escape_finishes {St} (next : iter St char) s l :
  finishes next s l -> finishes (escape_next next) (escape_new s) (flat_map quote (unescape l)).
Proof.
  intros H. eapply finishes_intro; [apply escape_behaves, behaves_finishes|].
  exists l. split; [exact H|reflexivity].
Qed.

(** ** [collect] *)
Lemma collect_finishes {St A} (next : iter St A) : forall l s fuel, (List.length l < fuel)%nat ->
  finishes next s l -> collect fuel next s = Some l.
Proof.
  induction l as [|x l IH]; intros s [|fuel] Hf H; cbn in Hf; try lia; cbn [collect].
  - apply finishes_nil in H as [s' ->]. reflexivity.
  - apply finishes_cons in H as (s' & -> & H). rewrite (IH s' fuel) by (assumption || lia). reflexivity.
Qed.
Lemma list_iterates {A} (l : list A) : iterates list_next l l.
Proof.
  apply (iterates_intro _ eq (fun s => s = [])); [split| |reflexivity].
  - intros s x l' ->. cbn. eauto.
  - intros s ->. cbn. eauto.
  - auto.
Qed.
Lemma iterates_finishes {St A} (next : iter St A) s l : iterates next s l -> finishes next s l.
Proof. apply (finishes_intro next _ _ s l (behaves_iterates next)). Qed.
