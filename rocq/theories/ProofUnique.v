(** Proof that lucid expressions determine the values of their parameters. *)
From Coq Require Import Lia.
From Verif Require Import SpecUnique ProofExpand4.

(** ** Strings: none is a prefix of another *)
Lemma quoted_prefix q : q <> backslash -> forall b b' r r', quoted q b -> quoted q b' ->
  b ++ q :: r = b' ++ q :: r' -> b = b' /\ r = r'.
Proof.
  intros Hq b b' r r' Hb. revert b' r r'. induction Hb as [|c b Hc Hcb _ IH|c b Hc _ IH]; intros b' r r' Hb' E.
  - destruct Hb' as [|c b' Hc _ _|c b' _ _]; cbn [app] in E.
    + injection E as ->. auto.
    + injection E as -> _. easy.
    + injection E as -> _. easy.
  - destruct Hb' as [|c' b' Hc' _ Hb'|c' b' _ Hb']; cbn [app] in E.
    + injection E as -> _. easy.
    + injection E as -> E. destruct (IH _ _ _ Hb' E) as [-> ->]. auto.
    + injection E as -> _. easy.
  - destruct Hb' as [|c' b' Hc' Hcb' Hb'|c' b' _ Hb']; cbn [app] in E.
    + injection E as E1 _. now symmetry in E1.
    + injection E as <- _. easy.
    + injection E as -> E. destruct (IH _ _ _ Hb' E) as [-> ->]. auto.
Qed.
Lemma typed_string digit space n p v : typed digit space n p v -> n = s_ "string" ->
  exists q b, p = q :: b ++ [q] /\ quoted q b /\
    (q = quote2 /\ v = [Some b; None] \/ q = quote1 /\ v = [None; Some b]).
Proof. intros H Hn. destruct H; try discriminate Hn; do 2 eexists; eauto. Qed.
Lemma string_prefix digit space n p v p' v' r r' : n = s_ "string" ->
  typed digit space n p v -> typed digit space n p' v' ->
  p ++ r = p' ++ r' -> p = p' /\ v = v' /\ r = r'.
Proof.
  intros Hn H H' E.
  apply typed_string in H as (q & b & -> & Hb & Hv); [|exact Hn].
  apply typed_string in H' as (q' & b' & -> & Hb' & Hv'); [|exact Hn].
  cbn [app] in E. injection E as <- E. rewrite <- !app_assoc in E. cbn [app] in E.
  apply quoted_prefix in E as [<- ->]; try assumption.
  - repeat split. destruct Hv as [[-> ->]|[-> ->]], Hv' as [[E' ->]|[E' ->]]; try reflexivity; discriminate E'.
  - destruct Hv as [[-> _]|[-> _]]; vm_compute; discriminate.
Qed.
(** The values of a parameter are determined by its piece. *)
Lemma typed_value digit space n p v v' : typed digit space n p v -> typed digit space n p v' -> v = v'.
Proof.
  intros H H'.
  destruct (list_eq_dec N.eq_dec n (s_ "string")) as [Hn|Hn].
  - now destruct (string_prefix digit space n p v p v' [] [] Hn H H' eq_refl) as (_ & -> & _).
  - inversion H; subst; inversion H'; subst; try reflexivity; try discriminate; now destruct Hn.
Qed.

Lemma split_first (d : char) p q r s : ~ In d p -> ~ In d q -> p ++ d :: r = q ++ d :: s -> p = q /\ r = s.
Proof.
  revert q. induction p as [|c p IH]; intros [|c' q] Hp Hq E; cbn in E.
  - injection E as ->. auto.
  - injection E as -> _. exfalso. apply Hq. now left.
  - injection E as -> _. exfalso. apply Hp. now left.
  - injection E as -> E. apply IH in E as [-> ->]; [auto| |]; intros H; [apply Hp|apply Hq]; now right.
Qed.

Section Unique.
  Context {I : Type} (text : I -> str) (digit space : char -> bool).
  Notation param := (fun p => typed digit space (text (@par_input I p))).
  Notation pieces := (pieces text param).
  Notation means := (means text param).

  Lemma means_app a b s v : means (a ++ b) s v <->
    exists s1 s2 v1 v2, s = s1 ++ s2 /\ v = v1 ++ v2 /\ means a s1 v1 /\ means b s2 v2.
  Proof.
    split.
    - intros (l & Hl & -> & ->). apply Forall2_app_inv_l in Hl as (la & lb & Ha & Hb & ->).
      exists (List.concat (map fst la)), (List.concat (map fst lb)), (List.concat (map snd la)), (List.concat (map snd lb)).
      rewrite !map_app, !concat_app. repeat split; [now exists la|now exists lb].
    - intros (s1 & s2 & v1 & v2 & -> & -> & (la & Ha & -> & ->) & (lb & Hb & -> & ->)).
      exists (la ++ lb). rewrite !map_app, !concat_app. repeat split. now apply Forall2_app.
  Qed.
  Lemma means_single x s v : means [x] s v <-> single_means text param x s v.
  Proof.
    split.
    - intros (l & Hl & -> & ->). inversion Hl as [|? [p w] ? l' Hx Hn]; subst. inversion Hn; subst.
      cbn. now rewrite !app_nil_r.
    - intros H. exists [(s, v)]. cbn. rewrite !app_nil_r. repeat split. now constructor.
  Qed.
  Lemma means_nil s v : means [] s v <-> s = [] /\ v = [].
  Proof.
    split; [intros (l & Hl & -> & ->); inversion Hl; subst; auto|]. intros [-> ->]. exists []. repeat split. constructor.
  Qed.
  Lemma means_cons x e s v : means (x :: e) s v <->
    exists s1 s2 v1 v2, s = s1 ++ s2 /\ v = v1 ++ v2 /\ single_means text param x s1 v1 /\ means e s2 v2.
  Proof.
    change (x :: e) with ([x] ++ e). rewrite means_app.
    split; intros (s1 & s2 & v1 & v2 & -> & -> & H1 & H2); exists s1, s2, v1, v2; repeat split; try assumption;
      now apply means_single.
  Qed.
  Lemma no_parameters_no_values u s v : parameters u = [] -> means u s v -> v = [].
  Proof.
    revert s v. induction u as [|x u IH]; intros s v Hu H.
    - now apply means_nil in H as [_ ->].
    - apply means_cons in H as (s1 & s2 & v1 & v2 & -> & -> & H1 & H2).
      destruct x; cbn in Hu; try discriminate Hu; cbn in H1; destruct H1 as [_ ->]; cbn; eapply IH; eassumption.
  Qed.
  Lemma unit_value u s v v' : unit_ u -> means u s v -> means u s v' -> v = v'.
  Proof.
    intros [Hu|[p ->]] H H'.
    - apply no_parameters_no_values in H, H'; try assumption. now subst.
    - apply means_single in H, H'. cbn in H, H'. eapply typed_value; eassumption.
  Qed.

  Lemma lucid_unique e : lucid text digit space e -> forall s v v', means e s v -> means e s v' -> v = v'.
  Proof.
    induction 1 as [|x t e Hx _ IH|p e Hp _ IH|u e Hu Hd _ IH]; intros s v v' H H'.
    - apply means_nil in H as [_ ->]. now apply means_nil in H' as [_ ->].
    - apply means_cons in H as (s1 & s2 & v1 & v2 & -> & -> & H1 & H2).
      apply means_cons in H' as (s1' & s2' & v1' & v2' & E & -> & H1' & H2').
      destruct x; cbn in Hx; try contradiction; cbn in H1, H1'; destruct H1 as [-> ->], H1' as [-> ->];
        apply app_inv_head in E; subst; cbn; eapply IH; eassumption.
    - apply means_cons in H as (s1 & s2 & v1 & v2 & -> & -> & H1 & H2).
      apply means_cons in H' as (s1' & s2' & v1' & v2' & E & -> & H1' & H2').
      cbn in H1, H1'. destruct (string_prefix _ _ _ _ _ _ _ _ _ Hp H1 H1' E) as (-> & -> & ->).
      f_equal. eapply IH; eassumption.
    - apply means_app in H as (s1 & s2 & v1 & v2 & -> & -> & H1 & H2).
      apply means_app in H' as (s1' & s2' & v1' & v2' & E & -> & H1' & H2').
      assert (s1 = s1' /\ s2 = s2') as [-> ->].
      { destruct Hd as [->|(x & e' & d & t & -> & Hx & Hno)].
        - apply means_nil in H2 as [-> _]. apply means_nil in H2' as [-> _]. now rewrite !app_nil_r in E.
        - assert (Hlit : forall s v, means (x :: e') s v -> exists r, s = d :: r).
          { intros s v H. apply means_cons in H as (a & b & w1 & w2 & -> & -> & Ha & _).
            destruct x; cbn in Hx; try contradiction; cbn in Ha; destruct Ha as [-> ->]; rewrite <- Hx; cbn; eauto. }
          destruct (Hlit _ _ H2) as [r ->]. destruct (Hlit _ _ H2') as [r' ->].
          destruct H1 as (l & Hl & -> & _). destruct H1' as (l' & Hl' & -> & _).
          apply split_first in E as [E1 E2]; [now rewrite E1, E2|now apply Hno|now apply Hno]. }
      f_equal; [eapply unit_value; eassumption|eapply IH; eassumption].
  Qed.
End Unique.

(** ** Expressions with blanks around their parameters *)
Section Spaced.
  Context {I : Type} (text : I -> str) (digit space : char -> bool).
  Context (Hspace : space (c_ " ") = true) (Hdigit : digit (c_ " ") = false).
  Notation param := (fun p => typed digit space (text (@par_input I p))).

  Lemma digits_blank p : digits digit p -> ~ In (c_ " ") p.
  Proof.
    intros H Hi. unfold digits in H. rewrite Forall_forall in H. rewrite (H _ Hi) in Hdigit. discriminate.
  Qed.
  Lemma signed_blank signs (body : str -> Prop) p : Forall (fun s => ~ In (c_ " ") s) signs ->
    (forall b, body b -> ~ In (c_ " ") b) -> signed signs body p -> ~ In (c_ " ") p.
  Proof.
    intros Hs Hb (sign & b & -> & Hsign & H). rewrite in_app_iff. intros [Hi|Hi]; [|now apply (Hb b)].
    destruct Hsign as [->|Hsign]; [easy|]. rewrite Forall_forall in Hs. now apply (Hs sign).
  Qed.
  Ltac signs := repeat constructor; vm_compute; intuition discriminate.
  Lemma int_blank p : int_string digit p -> ~ In (c_ " ") p.
  Proof. apply signed_blank; [signs|]. intros b [_ Hb]. now apply digits_blank. Qed.
  Lemma float_blank p : float_string digit p -> ~ In (c_ " ") p.
  Proof.
    apply signed_blank; [signs|]. intros b [->|[->|(m & x & -> & Hm & Hx)]];
      [vm_compute; intuition discriminate|vm_compute; intuition discriminate|].
    rewrite in_app_iff. intros [Hi|Hi].
    - destruct Hm as [[_ Hm]|(a & b & -> & [_ Hm])]; [now apply digits_blank in Hm|].
      apply digits_blank in Hm. rewrite in_app_iff in Hm. rewrite !in_app_iff in Hi.
      destruct Hi as [Hi|[Hi|Hi]]; [tauto| |tauto]. vm_compute in Hi. intuition discriminate.
    - destruct Hx as [->|(e & y & -> & He & Hy)]; [easy|].
      destruct Hi as [->|Hi]; [vm_compute in He; intuition discriminate|].
      revert Hi. apply (signed_blank [s_ "+"; s_ "-"] (number digit)); [signs| |exact Hy].
      intros b [_ Hb]. now apply digits_blank.
  Qed.
  Lemma word_blank p : word_string space p -> ~ In (c_ " ") p.
  Proof.
    intros [_ H] Hi. rewrite Forall_forall in H. rewrite (H _ Hi) in Hspace. discriminate.
  Qed.

  Lemma optional_blank o p : blank_free text (opt_input o) -> optional_means text o p -> ~ In (c_ " ") p.
  Proof. intros H [->| ->]; [exact H|easy]. Qed.
  Lemma branch_blank b p : Forall (blank_free_alternative text) b -> branch_means text b p -> ~ In (c_ " ") p.
  Proof.
    intros Hb H. induction H as [|a b p q Ha _ IH]; [easy|]. apply Forall_cons_iff in Hb as [Hba Hb].
    rewrite in_app_iff. intros [Hi|Hi]; [|now apply IH].
    destruct a as [o|t]; cbn in Ha, Hba.
    - now apply optional_blank in Ha.
    - subst p. now apply Hba.
  Qed.
  Lemma plain_blank x p v : plain_element text x -> single_means text param x p v -> ~ In (c_ " ") p.
  Proof.
    destruct x as [a|o|q|t|w]; cbn; intros Hx H; try contradiction.
    - destruct H as [[(b & Hb & Hm)|[-> ->]] _]; [|easy].
      eapply branch_blank; [|exact Hm]. rewrite Forall_forall in Hx. now apply Hx.
    - destruct H as [H _]. now apply optional_blank in H.
    - destruct H as [-> _]. exact Hx.
  Qed.
  Lemma plains_blank u l : Forall (plain_element text) u -> pieces text param u l ->
    ~ In (c_ " ") (List.concat (map fst l)).
  Proof.
    intros Hu H. induction H as [|x [p v] u l Hx _ IH]; [easy|]. apply Forall_cons_iff in Hu as [Hux Hu].
    cbn. rewrite in_app_iff. intros [Hi|Hi]; [|now apply IH]. now apply plain_blank in Hx.
  Qed.
  Lemma plains_parameters u : Forall (plain_element text) u -> parameters u = [].
  Proof. induction 1 as [|x u Hx _ IH]; [reflexivity|]. now destruct x. Qed.

  Lemma spaced_lucid e : spaced text e -> lucid text digit space e.
  Proof.
    induction 1 as [|w e _ IH|u e Hu He _ IH|p e Hp He _ IH].
    - constructor.
    - eapply lucid_literal; [reflexivity|exact IH].
    - apply lucid_delimited; [left; now apply plains_parameters| |exact IH].
      destruct He as [->|(w & e' & t & -> & Ht)]; [now left|]. right. exists (ExWhitespaces w), e', (c_ " "), t.
      repeat split; [now cbn|]. intros l Hl. now apply plains_blank with (u := u).
    - assert (Hcase : text (par_input p) = s_ "string" \/
        In (text (par_input p)) [s_ "int"; s_ "float"; s_ "word"]).
      { destruct Hp as [<-|[<-|[<-|[<-|[]]]]]; cbn [In]; tauto. }
      destruct Hcase as [Hs|Hs]; [now apply lucid_string|].
      apply (lucid_delimited text digit space [ExParameter p]); [right; now exists p| |exact IH].
      destruct He as [->|(w & e' & t & -> & Ht)]; [now left|]. right. exists (ExWhitespaces w), e', (c_ " "), t.
      repeat split; [now cbn|]. intros l Hl.
      inversion Hl as [|? [q v] ? l' Hx Hn]; subst. inversion Hn; subst. cbn. rewrite app_nil_r. cbn in Hx.
      remember (text (par_input p)) as n eqn:En. clear En.
      destruct Hx as [q H|q H|q H|b H|b H|q H].
      + now apply int_blank.
      + now apply float_blank.
      + now apply word_blank.
      + exfalso. vm_compute in Hs. intuition discriminate.
      + exfalso. vm_compute in Hs. intuition discriminate.
      + exfalso. vm_compute in Hs. intuition discriminate.
  Qed.
End Spaced.

Lemma captures_unique s e t r : addressable s -> expression_parse s = RetOk e -> expression_regex s = XOk t r ->
  forall digit space word, lucid frag digit space e ->
  forall pre m post c pre' m' post' c', pre ++ m ++ post = pre' ++ m' ++ post' ->
  rm digit space word r pre m post c -> rm digit space word r pre' m' post' c' ->
  m = m' /\ c = c'.
Proof.
  intros Hs He Hr digit space word Hl pre m post c pre' m' post' c' E H H'.
  apply (regex_captures s e t r Hs He Hr) in H as (-> & -> & H).
  apply (regex_captures s e t r Hs He Hr) in H' as (-> & -> & H').
  cbn in E. rewrite !app_nil_r in E. subst m'. split; [reflexivity|]. eapply lucid_unique; eassumption.
Qed.
