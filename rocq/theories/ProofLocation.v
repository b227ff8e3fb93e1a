(** Errors are located where the expression goes wrong. *)
From Verif Require Export ProofPrefix SpecLocation.

(** [s], read from [q], survives or is dead one character after the text of the error. *)
Definition settled (q : state) (s : str) (x : text_at) : Prop :=
  exists post, s = fst x ++ snd x ++ post /\
    (run q s <> Dead \/ run q (fst x ++ snd x ++ firstn 1 post) = Dead).
Definition located (q : state) (s : str) (e : error text_at) : Prop :=
  exists x, error_span e = Some x /\ settled q s x.
Definition sound (q : state) (e : error text_at) : Prop :=
  forall x, error_span e = Some x -> run q (fst x) <> Dead.

Lemma span_after p e x : error_span e = Some x -> error_span (after p e) = Some (p ++ fst x, snd x).
Proof. destruct e; cbn; intros H; inversion H; reflexivity. Qed.
Lemma span_after_inv p e x : error_span (after p e) = Some x ->
  exists y, error_span e = Some y /\ x = (p ++ fst y, snd y).
Proof. destruct e; cbn; intros H; inversion H; eauto. Qed.
Lemma located_after q p s e : located (run q p) s e -> located q (p ++ s) (after p e).
Proof.
  intros (x & Hx & post & Hs & H). exists (p ++ fst x, snd x). split; [now apply span_after|].
  exists post. cbn [fst snd]. rewrite <- !app_assoc, !run_app. rewrite !run_app in H.
  split; [now rewrite Hs|exact H].
Qed.
Lemma sound_after q p e : sound (run q p) e -> sound q (after p e).
Proof.
  intros H x Hx. apply span_after_inv in Hx as (y & Hy & ->). cbn [fst]. rewrite run_app. now apply H.
Qed.
Lemma located_dead s e x post : error_span e = Some x -> s = fst x ++ snd x ++ post -> located Dead s e.
Proof. intros H Hs. exists x. split; [assumption|]. exists post. split; [assumption|]. right. apply run_dead. Qed.

Ltac at_end := right; cbn [fst snd firstn]; rewrite ?app_nil_r.

(** Where reading a text with a broken escape leads. *)
Definition reading (special : str) (q : state) : Prop :=
  forall t, content special t -> run q t <> Dead /\ step (run q t) backslash <> Dead /\
    forall c, ~ In c reserved -> step (step (run q t) backslash) c = Dead.
Lemma escaping_dead q c : ~ In c reserved -> escaping q c = Dead.
Proof. intros H. unfold escaping. by_chars. Qed.
Lemma reading_text w : reading text_special (Outside w).
Proof.
  intros t Ht. rewrite (run_text t Ht). split; [easy|]. split; [easy|]. intros c Hc. exact (escaping_dead _ _ Hc).
Qed.
Lemma start_or w t : content optional_special t ->
  run (OptionalStart w) t = OptionalStart w \/ run (OptionalStart w) t = Optional w.
Proof. intros Ht. destruct t as [|x t]; [now left|right]. now apply run_optional_start. Qed.
Lemma reading_optional w : reading optional_special (OptionalStart w).
Proof.
  intros t Ht. destruct (start_or w t Ht) as [-> | ->];
    (split; [easy|]; split; [easy|]; intros c Hc; exact (escaping_dead _ _ Hc)).
Qed.
Lemma reading_name : reading name_special Name.
Proof.
  intros t Ht. rewrite (run_name t Ht). split; [easy|]. split; [easy|]. intros c Hc. exact (escaping_dead _ _ Hc).
Qed.
Lemma broken_located special q s e : reading special q -> broken_text special s e -> located q s e /\ sound q e.
Proof.
  intros Hq [|t Hne Ht|t c r Ht Hc].
  - destruct (Hq [] ltac:(constructor)) as (H1 & H2 & _). split.
    + eexists; split; [reflexivity|]. exists []. split; [reflexivity|]. now left.
    + intros x [= <-]. exact H1.
  - destruct (Hq t Ht) as (H1 & H2 & _). split.
    + eexists; split; [reflexivity|]. exists (skipn 2 (t ++ [backslash])). split; [cbn [fst snd app]; now rewrite firstn_skipn|].
      left. now rewrite run_app.
    + intros x [= <-]. apply (Hq [] ltac:(constructor)).
  - destruct (Hq t Ht) as (H1 & H2 & H3). split.
    + eexists; split; [reflexivity|]. exists r. split; [reflexivity|]. right. cbn [fst snd].
      rewrite !run_app. change (run (run q t) [backslash; c]) with (step (step (run q t) backslash) c).
      rewrite H3 by assumption. apply run_dead.
    + intros x [= <-]. exact H1.
Qed.

Lemma located_here q p y r (e : error text_at) : error_span e = Some (p, y) -> run q p <> Dead -> run (run q p) y = Dead ->
  located q (p ++ y ++ r) e /\ sound q e.
Proof.
  intros He Hp Hy. split.
  - exists (p, y). split; [assumption|]. exists r. split; [reflexivity|]. right. cbn [fst snd].
    rewrite !run_app, Hy. apply run_dead.
  - intros x Hx. rewrite He in Hx. injection Hx as <-. exact Hp.
Qed.
Lemma located_later q y r (e : error text_at) : error_span e = Some ([], y) -> q <> Dead -> run q (y ++ r) <> Dead ->
  located q (y ++ r) e /\ sound q e.
Proof.
  intros He Hp Hy. split.
  - exists ([], y). split; [assumption|]. exists r. split; [reflexivity|]. now left.
  - intros x Hx. rewrite He in Hx. injection Hx as <-. exact Hp.
Qed.
Lemma reassoc (a t s : str) : a ++ t ++ s = (a ++ t) ++ s.
Proof. apply app_assoc. Qed.

Lemma parameter_located s e w : w <> Needs -> parameter_error s e -> located (Outside w) s e /\ sound (Outside w) e.
Proof.
  intros Hw H. assert (E : forall r, run (Outside w) (s_ "{" ++ r) = run Name r) by now destruct w.
  assert (E0 : run (Outside w) (s_ "{") = Name) by now destruct w.
  assert (K : forall t, content name_special t -> run (Outside w) (s_ "{" ++ t) = Name) by (intros; now rewrite E, run_name).
  destruct H as [s e H|t H|t s n r H (-> & Hn) _|t s n r H (-> & Hn & Hn')|t r H _|t r H _|t r H].
  - destruct (broken_located name_special Name s e reading_name H) as [H1 H2].
    rewrite <- E0 in H1, H2. split; [now apply located_after|now apply sound_after].
  - apply located_later; [reflexivity|easy|]. rewrite K by assumption. easy.
  - replace (s_ "{" ++ t ++ s_ "{" ++ n ++ s_ "}" ++ r) with ((s_ "{" ++ t) ++ (s_ "{" ++ n ++ s_ "}") ++ r)
      by now rewrite <- !app_assoc.
    apply located_here; [reflexivity|now rewrite K|]. rewrite K by assumption. apply run_dead.
  - replace (s_ "{" ++ t ++ s_ "(" ++ n ++ s_ ")" ++ r) with ((s_ "{" ++ t) ++ (s_ "(" ++ n ++ s_ ")") ++ r)
      by now rewrite <- !app_assoc.
    apply located_here; [reflexivity|now rewrite K|]. rewrite K by assumption. apply run_dead.
  - rewrite reassoc. apply located_here; [reflexivity|now rewrite K|]. now rewrite K.
  - rewrite reassoc. apply located_here; [reflexivity|now rewrite K|]. now rewrite K.
  - rewrite reassoc. apply located_here; [reflexivity|now rewrite K|]. now rewrite K.
Qed.
Lemma optional_located s e w : optional_error s e -> located (Outside w) s e /\ sound (Outside w) e.
Proof.
  intros H. assert (E : forall r, run (Outside w) (s_ "(" ++ r) = run (OptionalStart w) r) by reflexivity.
  assert (N : forall t, content optional_special t -> run (Outside w) (s_ "(" ++ t) <> Dead).
  { intros t Ht. rewrite E. destruct (start_or w t Ht) as [-> | ->]; easy. }
  assert (D : forall t c r, content optional_special t -> In c (s_ "({/") ->
    run (run (Outside w) (s_ "(" ++ t)) ([c] ++ r) = Dead).
  { intros t c r Ht Hc. rewrite E, run_app. cbn in Hc.
    destruct (start_or w t Ht) as [-> | ->]; destruct Hc as [<-|[<-|[<-|[]]]]; apply run_dead. }
  destruct H as [s e H|t H|r|t s n r H (-> & _) _|t s n r H (-> & _)|t r H|t r H _|t r H _].
  - destruct (broken_located optional_special (OptionalStart w) s e (reading_optional w) H) as [H1 H2].
    split; [now apply located_after|now apply sound_after].
  - apply located_later; [reflexivity|easy|]. now apply N.
  - apply (located_here (Outside w) [] (s_ "()")); easy.
  - replace (s_ "(" ++ t ++ s_ "(" ++ n ++ s_ ")" ++ r) with ((s_ "(" ++ t) ++ (s_ "(" ++ n ++ s_ ")") ++ r)
      by now rewrite <- !app_assoc.
    apply located_here; [reflexivity|now apply N|]. apply (D t (c_ "(")); [assumption|cbn; auto].
  - replace (s_ "(" ++ t ++ s_ "{" ++ n ++ s_ "}" ++ r) with ((s_ "(" ++ t) ++ (s_ "{" ++ n ++ s_ "}") ++ r)
      by now rewrite <- !app_assoc.
    apply located_here; [reflexivity|now apply N|]. apply (D t (c_ "{")); [assumption|cbn; auto].
  - rewrite reassoc. apply located_here; [reflexivity|now apply N|]. apply (D t (c_ "/") []); [assumption|cbn; auto].
  - rewrite reassoc. apply located_here; [reflexivity|now apply N|]. apply (D t (c_ "(") []); [assumption|cbn; auto].
  - rewrite reassoc. apply located_here; [reflexivity|now apply N|]. apply (D t (c_ "{") []); [assumption|cbn; auto].
Qed.
Lemma item_located s e w : item_error s e -> located (Outside w) s e /\ sound (Outside w) e.
Proof.
  intros [H|H]; [now apply optional_located|]. apply (broken_located text_special); [apply reading_text|assumption].
Qed.

(** ** Branches *)
Lemma run_branch b : items b -> forall w,
  run (Outside w) (src_branch b) = Outside (if existsb (fun x => match x with AltText _ => true | _ => false end) b then Has else w).
Proof.
  intros (H & _). induction b as [|x b IH]; intros w; [reflexivity|]. inversion_clear H as [|? ? Hx Hb].
  unfold src_branch in *. cbn [flat_map map List.concat]. rewrite run_app. destruct x as [o|t].
  - cbn [existsb orb]. assert (Ho : run (Outside w) (src_alternative (AltOptional o)) = Outside w).
    { apply lang_optional, optional_lang. now exists o. }
    rewrite Ho. now apply IH.
  - cbn [existsb orb]. destruct Hx as [Hne Ht].
    assert (Hr : run (Outside w) (src_alternative (AltText t)) = Outside Has).
    { cbn [src_alternative]. rewrite run_text by assumption. now destruct t. }
    rewrite Hr, IH by assumption. now destruct (existsb _ _).
Qed.
Lemma has_text b : Exists is_text b <-> existsb (fun x : alternative str => match x with AltText _ => true | _ => false end) b = true.
Proof.
  rewrite Exists_exists, existsb_exists. split; intros (x & Hx & H); exists x; (split; [assumption|]); destruct x; cbn in *; try easy;
    now destruct H.
Qed.
Lemma slashed_cons b a : slashed (b :: a) = src_branch b ++ s_ "/" ++ slashed a.
Proof. unfold slashed. cbn [map List.concat]. now rewrite <- app_assoc. Qed.
(** All branches have a text, or the automaton is dead. *)
Lemma run_slashed_exact a : Forall branch a -> forall w, w <> Has ->
  (Forall (Exists is_text) a -> run (Outside w) (slashed a) = Outside (match a with [] => w | _ => Needs end)) /\
  (Exists (fun b => ~ Exists is_text b) a -> run (Outside w) (slashed a) = Dead).
Proof.
  induction 1 as [|b a (Hne & Hb) Ha IH]; intros w Hw; [split; [reflexivity|intros H; inversion H]|].
  rewrite slashed_cons, !run_app, run_branch by assumption. destruct (IH Needs ltac:(easy)) as [IH1 IH2]. split.
  - intros H. inversion_clear H as [|? ? Hx Hy]. apply has_text in Hx. rewrite Hx.
    change (run (Outside Has) (s_ "/")) with (Outside Needs). rewrite IH1 by assumption. now destruct a.
  - intros H. destruct (existsb _ b) eqn:E.
    + change (run (Outside Has) (s_ "/")) with (Outside Needs). apply IH2.
      inversion_clear H as [? ? Hx|? ? Hx]; [apply has_text in E; contradiction|assumption].
    + destruct w; [apply run_dead|apply run_dead|easy].
Qed.
Lemma texts_or (a : alternation str) : Forall (Exists is_text) a \/ Exists (fun b => ~ Exists is_text b) a.
Proof.
  induction a as [|b a [IH|IH]]; [left; constructor| |right; now constructor 2].
  destruct (existsb (fun x => match x with AltText _ => true | _ => false end) b) eqn:E.
  - left. constructor; [now apply has_text|assumption].
  - right. constructor. intros H. apply has_text in H. congruence.
Qed.
Lemma start_fresh x : word_start x -> reads_to (source x) = Outside Fresh.
Proof.
  intros ((Hx & _) & Hl). destruct x as [|y x] using rev_ind; [reflexivity|]. clear IHx.
  specialize (Hl x y eq_refl). apply Forall_app in Hx as [Hx Hy]. apply Forall_inv in Hy.
  unfold source in *. rewrite map_app, concat_app, reads_to_app. destruct (run_nodes x Hx) as (w & Hw & E).
  unfold source in E. rewrite E. cbn [map List.concat]. rewrite app_nil_r. destruct y as [| |p| |t]; try easy.
  - apply lang_parameter; [|assumption]. apply parameter_lang. cbn in Hy. exists (par_input p). auto.
  - cbn [src_single]. destruct Hy as [Hne Hy].
    assert (L : forall t, Forall (fun c => c = c_ " ") t -> t <> [] -> forall w, w <> Needs -> run (Outside w) t = Outside Fresh).
    { clear. intros t H. induction H as [|c t -> Ht IH]; intros Hn w Hw; [easy|]. rewrite run_cons.
      assert (E : step (Outside w) (c_ " ") = Outside Fresh) by now destruct w. rewrite E.
      destruct t as [|d t]; [reflexivity|now apply IH]. }
    now apply L.
Qed.
(** A branch made of optionals only, in the word that starts here. *)
Definition hidden_word (s : str) : Prop :=
  exists a r, Forall branch a /\ Exists (fun b => ~ Exists is_text b) a /\ s = slashed a ++ r.
Lemma hidden_word_dead s : hidden_word s -> run (Outside Fresh) s = Dead.
Proof.
  intros (a & r & Ha & H & ->). rewrite run_app, (proj2 (run_slashed_exact a Ha Fresh ltac:(easy))) by assumption. apply run_dead.
Qed.
Lemma join_slashed a b : join (s_ "/") (map src_branch (a ++ [b])) = slashed a ++ src_branch b.
Proof.
  induction a as [|x a IH]; [reflexivity|]. rewrite slashed_cons, <- !app_assoc. cbn [app map].
  destruct (map src_branch (a ++ [b])) eqn:E; [now destruct a|].
  change (join (s_ "/") (src_branch x :: s :: l)) with (src_branch x ++ s_ "/" ++ join (s_ "/") (s :: l)).
  now rewrite IH.
Qed.
Lemma alternation_located s e : alternation_error s e ->
  located (Outside Fresh) s e /\
  forall x, error_span e = Some x -> run (Outside Fresh) (fst x) <> Dead \/ hidden_word (fst x).
Proof.
  intros [a b s' e' Ha Hb _ He|r|a b r Ha [Hne Hb] Hr|a r Ha2 Ha Hr Hx].
  - rewrite app_assoc. destruct (texts_or a) as [T|T].
    + assert (E : exists w, run (Outside Fresh) (slashed a ++ src_branch b) = Outside w).
      { rewrite run_app, (proj1 (run_slashed_exact a Ha Fresh ltac:(easy))), run_branch by assumption. eauto. }
      destruct E as (w & E). destruct (item_located s' e' w He) as [H1 H2]. split.
      * apply located_after. now rewrite E.
      * intros x Hx. left. revert x Hx. apply sound_after. now rewrite E.
    + assert (E : run (Outside Fresh) (slashed a ++ src_branch b) = Dead).
      { rewrite run_app, (proj2 (run_slashed_exact a Ha Fresh ltac:(easy))) by assumption. apply run_dead. }
      split.
      * apply located_after. rewrite E. destruct (item_located s' e' Fresh He) as [(x & H1 & post & H2 & _) _].
        now apply located_dead with x post.
      * intros x Hx. right. apply span_after_inv in Hx as (y & _ & ->). exists a, (src_branch b ++ fst y).
        split; [assumption|]. split; [assumption|]. cbn [fst]. now rewrite <- !app_assoc.
  - split; [|intros x [= <-]; now left]. apply (located_here (Outside Fresh) [] (s_ "/")); easy.
  - split.
    + exists (slashed a ++ src_branch b, s_ "/"). split; [reflexivity|]. exists r. cbn [fst snd]. split; [now rewrite <- !app_assoc|].
      rewrite <- app_assoc.
      assert (E : run (Outside Fresh) (slashed a ++ src_branch b ++ s_ "/") = Dead \/
                  run (Outside Fresh) (slashed a ++ src_branch b ++ s_ "/") = Outside Needs).
      { destruct (texts_or a) as [T|T]; [|left].
        - rewrite !run_app, (proj1 (run_slashed_exact a Ha Fresh ltac:(easy))), run_branch by assumption.
          destruct (existsb _ b); [now right|]. destruct a; now left.
        - rewrite run_app, (proj2 (run_slashed_exact a Ha Fresh ltac:(easy))) by assumption. apply run_dead. }
      replace (slashed a ++ src_branch b ++ s_ "/" ++ r) with ((slashed a ++ src_branch b ++ s_ "/") ++ r) by now rewrite <- !app_assoc.
      replace (slashed a ++ src_branch b ++ s_ "/" ++ firstn 1 r) with ((slashed a ++ src_branch b ++ s_ "/") ++ firstn 1 r) by now rewrite <- !app_assoc.
      rewrite !(run_app _ (slashed a ++ _)). destruct E as [-> | ->]; [right; apply run_dead|].
      destruct Hr as [-> | (c & r' & -> & Hc)]; [now left|right]. cbn in Hc.
      destruct Hc as [<-|[<-|[<-|[]]]]; reflexivity.
    + intros x [= <-]. cbn [fst]. destruct (texts_or a) as [T|T].
      * left. rewrite run_app, (proj1 (run_slashed_exact a Ha Fresh ltac:(easy))), run_branch by assumption. discriminate.
      * right. now exists a, (src_branch b).
  - split; [|intros x [= <-]; now left]. eexists. split; [reflexivity|]. exists r. cbn [fst snd app]. split; [reflexivity|].
    destruct a as [|b a] using rev_ind; [cbn in Ha2; lia|]. clear IHa. rewrite join_slashed.
    apply Forall_app in Ha as [Ha Hb]. apply Forall_inv in Hb as [_ Hb].
    rewrite !run_app. destruct (texts_or a) as [T|T].
    + rewrite (proj1 (run_slashed_exact a Ha Fresh ltac:(easy))), run_branch by assumption.
      assert (N : existsb (fun x : alternative str => match x with AltText _ => true | _ => false end) b = false).
      { apply Exists_app in Hx as [Hx|Hx].
        - exfalso. apply Exists_exists in Hx as (y & Hy & Hny). rewrite Forall_forall in T. now apply Hny, T.
        - inversion_clear Hx as [? ? H|? ? H]; [|inversion H]. rewrite has_text in H. now destruct (existsb _ b). }
      rewrite N. destruct a as [|a0 a]; [cbn in Ha2; lia|].
      destruct Hr as [-> | (c & r' & -> & Hc)]; [now left|right]. cbn in Hc. destruct Hc as [<-|[<-|[]]]; reflexivity.
    + right. rewrite (proj2 (run_slashed_exact a Ha Fresh ltac:(easy))) by assumption. now rewrite !run_dead.
Qed.

Lemma alternation_no_brace s e : alternation_error s e -> ~ starts_with_in (s_ "{") s.
Proof.
  assert (C : forall t r, content text_special t -> t <> [] -> ~ starts_with_in (s_ "{") (t ++ r)).
  { intros t r H Hne (c & r' & E & [<-|[]]). destruct H; cbn in E; [easy| |]; injection E as E1 E2; subst; [|easy]. apply H. cbn; auto. }
  assert (I : forall b r, items b -> starts_with_in (s_ "{") (src_branch b ++ r) -> b = []).
  { intros [|x b] r (H & _) Hs; [reflexivity|exfalso]. apply Forall_inv in H. unfold src_branch in Hs. cbn in Hs. rewrite <- app_assoc in Hs.
    destruct x as [o|t]; [destruct Hs as (c & r' & E & [<-|[]]); discriminate|]. destruct H as [Hne Ht]. now apply (C _ _ Ht Hne) in Hs. }
  intros H Hs. destruct H as [a b s' e' Ha Hb _ He|r|a b r Ha [Hne Hb] Hr|a r Ha2 Ha Hr Hx].
  - destruct a as [|x a]; [cbn [slashed map List.concat app] in Hs|].
    + pose proof (I _ _ Hb Hs) as ->. cbn [src_branch flat_map map List.concat app] in Hs.
      destruct He as [He|He].
      * destruct Hs as (c & r' & -> & [<-|[]]). inversion He.
      * destruct He as [|t Hne Ht|t c r Ht Hc].
        -- destruct Hs as (c & r' & E & [<-|[]]). discriminate.
        -- now apply (C _ _ Ht Hne) in Hs.
        -- destruct t as [|y t]; [destruct Hs as (c' & r' & E & [<-|[]]); discriminate|]. now apply (C _ _ Ht) in Hs.
    + apply Forall_inv in Ha as [Hne Hx]. rewrite slashed_cons, <- !app_assoc in Hs. now apply (I _ _ Hx) in Hs.
  - destruct Hs as (c & r' & E & [<-|[]]). discriminate.
  - destruct a as [|x a]; [cbn [slashed map List.concat app] in Hs; now apply (I _ _ Hb) in Hs|].
    apply Forall_inv in Ha as [Hnx Hx]. rewrite slashed_cons, <- !app_assoc in Hs. now apply (I _ _ Hx) in Hs.
  - destruct a as [|x a]; [cbn in Ha2; lia|]. apply Forall_inv in Ha as [Hnx Hb].
    destruct a as [|y a]; [cbn in Ha2; lia|]. cbn [map] in Hs.
    change (join (s_ "/") (src_branch x :: src_branch y :: map src_branch a)) with
      (src_branch x ++ s_ "/" ++ join (s_ "/") (src_branch y :: map src_branch a)) in Hs.
    rewrite <- !app_assoc in Hs. now apply (I _ _ Hb) in Hs.
Qed.
Lemma expression_located s e : expression_error s e ->
  located (Outside Fresh) s e /\
  forall x, error_span e = Some x -> reads_to (fst x) <> Dead \/ hidden (fst x).
Proof.
  intros [x s' e' Hx Hm Hl He]. destruct (run_nodes x Hx) as (w & Hw & E). destruct He as [He|He].
  - destruct (parameter_located s' e' w Hw He) as [H1 H2]. split.
    + apply located_after. change (run (Outside Fresh) (source x)) with (reads_to (source x)). now rewrite E.
    + intros y Hy. left. revert y Hy. apply sound_after. change (run (Outside Fresh) (source x)) with (reads_to (source x)). now rewrite E.
  - assert (W : word_start x).
    { split; [now split|]. intros l y ->. specialize (Hl l y eq_refl). destruct y; try exact I; now apply alternation_no_brace in He. }
    pose proof (start_fresh x W) as F. destruct (alternation_located s' e' He) as [H1 H2]. split.
    + apply located_after. change (run (Outside Fresh) (source x)) with (reads_to (source x)). now rewrite F.
    + intros y Hy. apply span_after_inv in Hy as (z & Hz & ->). cbn [fst].
      destruct (H2 z Hz) as [H|(a & r & Ha & Hb & H)].
      * left. rewrite reads_to_app, F. exact H.
      * right. exists x, a, r. rewrite H. auto.
Qed.
Lemma hidden_dead s : hidden s -> reads_to s = Dead.
Proof.
  intros (x & a & r & Hx & Ha & Hb & ->). rewrite reads_to_app, start_fresh by assumption. apply hidden_word_dead. now exists a, r.
Qed.

(** ** The first dead state *)
Lemma first_dead s : reads_to s = Dead ->
  exists p c q, s = p ++ c :: q /\ reads_to p <> Dead /\ reads_to (p ++ [c]) = Dead.
Proof.
  induction s as [|c s IH] using rev_ind; [discriminate|]. intros H.
  destruct (state_dec (reads_to s) Dead) as [E|E].
  - destruct (IH E) as (p & d & q & -> & H1 & H2). exists p, d, (q ++ [c]). now rewrite <- app_assoc.
  - exists s, c, []. auto.
Qed.
Lemma addressable_part a b c : addressable ((a ++ b) ++ c) -> addressable (a ++ c).
Proof. unfold addressable. rewrite !app_length. lia. Qed.

Lemma error_location s er i : addressable (s ++ s_ "abc") -> expression_parse s = RetErr er -> error_span er = Some i ->
  exists pre post, s = pre ++ frag i ++ post /\ off i = blen pre /\
    (completable accepted pre \/ hidden pre) /\
    (completable accepted s \/
     exists p c, ruined accepted s p c /\ (List.length p <= List.length (pre ++ frag i))%nat).
Proof.
  intros Hs H Hi. assert (Hs0 : addressable s) by (unfold addressable in *; rewrite app_length in Hs; lia).
  apply parse_err_iff in H as (e & H & ->); [|assumption].
  assert (X : exists x, error_span e = Some x /\ span_at 0 1 x = i) by (destruct e; cbn in Hi |- *; inversion Hi; eauto).
  destruct X as (x & Hx & <-). destruct (expression_located s e H) as [(x' & Hx' & post & Hp & Hd) Hh].
  assert (x' = x) as -> by congruence. specialize (Hh x Hx). destruct x as [pre t]. cbn [fst snd] in *.
  exists pre, post. split; [exact Hp|]. split; [reflexivity|]. split.
  - destruct Hh as [Hh|Hh]; [left|now right]. apply completable_iff; [|assumption]. rewrite Hp in Hs. now apply addressable_part in Hs.
  - destruct (state_dec (reads_to s) Dead) as [D|D]; [right|left; now apply completable_iff].
    destruct Hd as [Hd|Hd]; [now apply Hd in D|].
    destruct (first_dead _ Hd) as (p & c & q & Hq & H1 & H2).
    exists p, c. split.
    + exists (q ++ skipn 1 post). 
      assert (Es : s = p ++ c :: q ++ skipn 1 post).
      { rewrite Hp. transitivity ((pre ++ t ++ firstn 1 post) ++ skipn 1 post); [|rewrite Hq; now rewrite <- app_assoc].
        rewrite <- !app_assoc. now rewrite firstn_skipn. }
      split; [exact Es|]. split.
      * apply completable_iff; [|assumption]. rewrite Es in Hs. now apply addressable_part in Hs.
      * intros C. apply completable_iff in C; [contradiction|].
        rewrite Es in Hs. replace (p ++ c :: q ++ skipn 1 post) with ((p ++ [c]) ++ q ++ skipn 1 post) in Hs by now rewrite <- app_assoc.
        now apply addressable_part in Hs.
    + apply (f_equal (@List.length _)) in Hq. change (frag (span_at 0 1 (pre, t))) with t.
      assert (L : (List.length (firstn 1 post) <= 1)%nat) by apply firstn_le_length.
      unfold str, char in *. rewrite !app_length in *. cbn [List.length] in Hq. lia.
Qed.
Lemma hidden_stays s : addressable (s ++ s_ "abc") -> hidden s -> ~ completable accepted s.
Proof. intros Hs H C. apply completable_iff in C; [|assumption]. now apply hidden_dead in H. Qed.
Lemma location_refuted : exists s er i pre post, addressable (s ++ s_ "abc") /\
  expression_parse s = RetErr er /\ error_span er = Some i /\
  s = pre ++ frag i ++ post /\ off i = blen pre /\ ~ completable accepted pre.
Proof.
  exists (s_ "(a)/(b"), (UnfinishedOptional (mkspan 4 1 (s_ "("))), (mkspan 4 1 (s_ "(")), (s_ "(a)/"), (s_ "b").
  split; [easy|]. split; [vm_compute; reflexivity|]. repeat (split; [reflexivity|]).
  rewrite completable_iff by easy. intros H. now apply H.
Qed.
