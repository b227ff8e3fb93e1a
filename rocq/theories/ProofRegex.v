(** The regex parser reads the pieces of an expansion independently of each other. *)
From Coq Require Import PeanoNat.
From Verif Require Export Expand ProofIter.

Lemma run_app a b s : run (a ++ b) s = obind (run a s) (run b).
Proof.
  revert s; induction a as [|c a IH]; intros s; cbn; [reflexivity|].
  destruct (step s c); cbn; [apply IH|reflexivity|reflexivity].
Qed.
Lemma run_cons c t s : run (c :: t) s = obind (step s c) (run t).
Proof. reflexivity. Qed.
Lemma run_nil s : run [] s = Done s.
Proof. reflexivity. Qed.

Lemma digit_no_letter c : is_digit_char c = true -> is_letter c || (c =? c_ "-") = false.
Proof.
  unfold is_digit_char. intros [H1%N.leb_le H2%N.leb_le]%andb_prop. apply orb_false_iff. split.
  - unfold is_letter, is_lower, is_upper. change (c_ "9") with 57 in H2. change (c_ "a") with 97. change (c_ "A") with 65.
    destruct (N.leb_spec 97 c), (N.leb_spec 65 c); try lia; reflexivity.
  - apply N.eqb_neq. intros ->. now apply H1.
Qed.
(** Between two items. *)
Inductive ready : mode -> Prop := ready_normal : ready MNormal | ready_rep : ready MRep | ready_word : ready MWord.

(** [t] is read as the items [rs], wherever it stands (but directly before a [?]). *)
Definition adds (t : str) (rs : list re) : Prop :=
  forall m items alts stack, ready m -> exists m', ready m' /\
    run t (mkState m items alts stack) = Done (mkState m' (rev rs ++ items) alts stack).
(** The same, and what follows may be a repetition operator. *)
Definition adds_one (t : str) (r : re) : Prop :=
  forall m items alts stack, ready m ->
    run t (mkState m items alts stack) = Done (mkState MNormal (r :: items) alts stack).
(** Where a [?] repeats the last item. *)
Definition settled (m : mode) : Prop := ready m /\ m <> MRep.
(** The same, for texts that may end in [\b]. *)
Definition adds_settled (t : str) (r : re) : Prop :=
  forall m items alts stack, ready m -> exists m', settled m' /\
    run t (mkState m items alts stack) = Done (mkState m' (r :: items) alts stack).
(** [t] is read as the inside [r] of a group. *)
Definition reads (t : str) (r : re) : Prop :=
  forall stack, exists m items alts, ready m /\
    run t (mkState MNormal [] [] stack) = Done (mkState m items alts stack) /\ body items alts = r.

Lemma adds_nil : adds [] [].
Proof. intros m items alts stack Hm. exists m. split; [assumption|reflexivity]. Qed.
Lemma adds_app t u rs qs : adds t rs -> adds u qs -> adds (t ++ u) (rs ++ qs).
Proof.
  intros Ht Hu m items alts stack Hm. rewrite run_app.
  destruct (Ht m items alts stack Hm) as (m1 & Hm1 & ->). cbn [obind].
  destruct (Hu m1 (rev rs ++ items) alts stack Hm1) as (m2 & Hm2 & ->).
  exists m2. split; [assumption|]. now rewrite rev_app_distr, app_assoc.
Qed.
Lemma adds_one_adds t r : adds_one t r -> adds t [r].
Proof. intros H m items alts stack Hm. exists MNormal. split; [constructor|]. cbn. now apply H. Qed.
Lemma settled_normal : settled MNormal.
Proof. split; [constructor|discriminate]. Qed.
Lemma settled_word : settled MWord.
Proof. split; [constructor|discriminate]. Qed.
Lemma adds_one_settled t r : adds_one t r -> adds_settled t r.
Proof. intros H m items alts stack Hm. exists MNormal. split; [apply settled_normal|]. now apply H. Qed.
Lemma adds_settled_adds t r : adds_settled t r -> adds t [r].
Proof. intros H m items alts stack Hm. destruct (H m items alts stack Hm) as (m' & [Hm' _] & E). now exists m'. Qed.
Lemma adds_flat_map {A} (f : A -> str) (g : A -> list re) l :
  (forall x, In x l -> adds (f x) (g x)) -> adds (flat_map f l) (flat_map g l).
Proof.
  induction l as [|x l IH]; cbn; intros H; [apply adds_nil|].
  apply adds_app; [apply H|apply IH]; auto.
Qed.
Lemma adds_reads t rs : adds t rs -> reads t (mk_cat rs).
Proof.
  intros H stack. destruct (H MNormal [] [] stack ready_normal) as (m & Hm & E).
  exists m, (rev rs), []. split; [assumption|]. rewrite app_nil_r in E. split; [exact E|].
  unfold body. cbn. now rewrite rev_involutive.
Qed.

(** Alternatives. *)
Lemma step_bar m items alts stack : ready m ->
  step (mkState m items alts stack) (c_ "|") = Done (mkState MNormal [] (mk_cat (rev items) :: alts) stack).
Proof. now intros []. Qed.
Definition bars (l : list (str * list re)) : str := flat_map (fun x => s_ "|" ++ fst x) l.
Definition cats (l : list (str * list re)) : list re := map (fun x => mk_cat (snd x)) l.
Lemma run_branches l : Forall (fun x => adds (fst x) (snd x)) l ->
  forall m items alts stack, ready m -> exists m' items' alts', ready m' /\
    run (bars l) (mkState m items alts stack) = Done (mkState m' items' alts' stack) /\
    rev (mk_cat (rev items') :: alts') = rev (mk_cat (rev items) :: alts) ++ cats l.
Proof.
  induction l as [|[t rs] l IH]; intros Hl m items alts stack Hm.
  - exists m, items, alts. repeat split; [assumption|]. cbn. now rewrite app_nil_r.
  - inversion_clear Hl. rename H into Ht, H0 into Hl. cbn [fst snd] in Ht.
    change (bars ((t, rs) :: l)) with (c_ "|" :: t ++ bars l).
    rewrite run_cons, step_bar by assumption. cbn [obind]. rewrite run_app.
    destruct (Ht MNormal [] (mk_cat (rev items) :: alts) stack ready_normal) as (m1 & Hm1 & ->).
    cbn [obind]. rewrite app_nil_r.
    destruct (IH Hl m1 (rev rs) (mk_cat (rev items) :: alts) stack Hm1) as (m2 & i2 & a2 & Hm2 & -> & E).
    exists m2, i2, a2. split; [assumption|]. split; [reflexivity|]. rewrite E, rev_involutive.
    cbn. now rewrite <- !app_assoc.
Qed.
Lemma reads_branches t rs l : adds t rs -> Forall (fun x => adds (fst x) (snd x)) l ->
  reads (t ++ bars l) (mk_alt (mk_cat rs :: cats l)).
Proof.
  intros Ht Hl stack. rewrite run_app.
  destruct (Ht MNormal [] [] stack ready_normal) as (m1 & Hm1 & ->). cbn [obind]. rewrite app_nil_r.
  destruct (run_branches l Hl m1 (rev rs) [] stack Hm1) as (m2 & items & alts & Hm2 & -> & E).
  exists m2, items, alts. split; [assumption|]. split; [reflexivity|]. unfold body. rewrite E.
  now rewrite rev_involutive.
Qed.

(** Groups. *)
Lemma step_close m items alts f stack : ready m ->
  step (mkState m items alts (f :: stack)) (c_ ")") =
  Done (mkState MNormal (match fr_kind f with KCapture n => RCap n (body items alts) | KGroup => body items alts end
                           :: fr_items f) (fr_alts f) stack).
Proof. now intros []. Qed.
Lemma run_inside t r k items alts stack : reads t r ->
  run (t ++ s_ ")") (mkState MNormal [] [] (mkFrame k items alts :: stack)) =
  Done (mkState MNormal (match k with KCapture n => RCap n r | KGroup => r end :: items) alts stack).
Proof.
  intros H. rewrite run_app. destruct (H (mkFrame k items alts :: stack)) as (m & i & a & Hm & -> & <-).
  cbn [obind]. change (s_ ")") with [c_ ")"]. rewrite run_cons, step_close by assumption. reflexivity.
Qed.
Lemma adds_one_group t r : reads t r -> adds_one (s_ "(?:" ++ t ++ s_ ")") r.
Proof.
  intros H m items alts stack Hm. rewrite run_app.
  replace (run (s_ "(?:") (mkState m items alts stack)) with
    (Done (mkState MNormal [] [] (mkFrame KGroup items alts :: stack))) by now destruct Hm.
  cbn [obind]. now rewrite (run_inside _ _ _ _ _ _ H).
Qed.
Lemma adds_one_capture t r : (forall u, t <> c_ "?" :: u) -> reads t r ->
  adds_one (s_ "(" ++ t ++ s_ ")") (RCap None r).
Proof.
  intros Hq H m items alts stack Hm. rewrite run_app.
  replace (run (s_ "(") (mkState m items alts stack)) with
    (Done (mkState MOpen items alts stack)) by now destruct Hm.
  cbn [obind].
  replace (run (t ++ s_ ")") (mkState MOpen items alts stack)) with
    (run (t ++ s_ ")") (mkState MNormal [] [] (mkFrame (KCapture None) items alts :: stack)));
    [now rewrite (run_inside _ _ _ _ _ _ H)|].
  destruct t as [|c t]; [reflexivity|]. cbn [app]. rewrite !run_cons. f_equal.
  cbn [step st_mode]. destruct (N.eqb_spec c (c_ "?")) as [->|]; [now destruct (Hq t)|]. reflexivity.
Qed.
Lemma run_name n : forall acc s,
  Forall (fun c => c < 128 /\ (c = c_ "_" \/ is_letter c = true \/ acc <> [] /\ is_digit_char c = true)) n ->
  run n (set_mode (MName acc) s) = Done (set_mode (MName (rev n ++ acc)) s).
Proof.
  induction n as [|c n IH]; intros acc s Hn; [reflexivity|].
  inversion_clear Hn. destruct H as [Hc H]. rewrite run_cons.
  replace (step (set_mode (MName acc) s) c) with (Done (set_mode (MName (c :: acc)) s)).
  - cbn [obind]. replace (rev (c :: n) ++ acc) with (rev n ++ c :: acc) by (cbn; now rewrite <- app_assoc).
    apply IH. eapply Forall_impl; [|exact H0]. cbn. intros d. intuition easy.
  - cbn [step set_mode st_mode]. unfold step_name.
    destruct (N.eqb_spec c (c_ ">")) as [->|_].
    { exfalso. cbv in H. intuition easy. }
    destruct (N.leb_spec 128 c); [lia|].
    destruct H as [-> | [-> | [Ha Hd]]]; [reflexivity|now rewrite orb_true_r|].
    destruct (_ || _); [reflexivity|]. destruct acc; [easy|]. now rewrite Hd.
Qed.
Lemma adds_one_named n t r :
  n <> [] -> (forall acc s, exists acc', run n (set_mode (MName acc) s) = Done (set_mode (MName acc') s) /\ acc' = rev n ++ acc) ->
  reads t r -> adds_one (s_ "(?P<" ++ n ++ s_ ">" ++ t ++ s_ ")") (RCap (Some n) r).
Proof.
  intros Hn Hrun H m items alts stack Hm. rewrite run_app.
  replace (run (s_ "(?P<") (mkState m items alts stack)) with
    (Done (set_mode (MName []) (mkState MNormal items alts stack))) by now destruct Hm.
  cbn [obind]. rewrite run_app. destruct (Hrun [] (mkState MNormal items alts stack)) as (a & -> & ->).
  cbn [obind]. rewrite app_nil_r. change (s_ ">" ++ t ++ s_ ")") with (c_ ">" :: t ++ s_ ")").
  rewrite run_cons.
  replace (step _ _) with (Done (mkState MNormal [] [] (mkFrame (KCapture (Some n)) items alts :: stack))).
  - cbn [obind]. now rewrite (run_inside _ _ _ _ _ _ H).
  - cbn [step set_mode st_mode]. unfold step_name. rewrite N.eqb_refl.
    destruct (rev n) eqn:E.
    + apply (f_equal (@rev N)) in E. rewrite rev_involutive in E. now subst.
    + rewrite <- E, rev_involutive. reflexivity.
Qed.

(** An optional group. *)
Lemma adds_question t r : adds_one t r -> adds (t ++ s_ "?") [RRep 0 (Some 1) true r].
Proof.
  intros H m items alts stack Hm. exists MRep. split; [constructor|]. rewrite run_app, H by assumption. reflexivity.
Qed.

(** Quoted chars. *)
Definition plain_step c := forallb (fun d => negb (c =? d)) (s_ "()|[?*+{\.^$").
Lemma step_plain m items alts stack c : ready m -> plain_step c = true ->
  step (mkState m items alts stack) c = Done (mkState MNormal (RLit c :: items) alts stack).
Proof.
  intros Hm H. unfold plain_step in H. cbn [forallb s_] in H.
  repeat (apply andb_prop in H; destruct H as [?E%negb_true_iff H]).
  assert (Hs : forall s, step_normal s c = Done (push_item (RLit c) s)).
  { intros s. unfold step_normal. now rewrite E, E0, E1, E2, E3, E4, E5, E6, E7, E8, E9, E10. }
  destruct Hm; cbn [step st_mode]; [|rewrite E3|rewrite E6]; now rewrite Hs.
Qed.
Lemma adds_quote c : adds_one (quote c) (RLit c).
Proof.
  intros m items alts stack Hm. unfold quote. destruct (in_dec N.eq_dec c regex_special) as [H|H].
  - assert (Hc : step (mkState MEsc items alts stack) c = Done (mkState MNormal (RLit c :: items) alts stack)).
    { cbn in H. repeat destruct H as [<-|H]; try easy. }
    rewrite run_cons. replace (step _ (c_ "\")) with (Done (mkState MEsc items alts stack)) by now destruct Hm.
    cbn [obind]. now rewrite run_cons, Hc.
  - rewrite run_cons, step_plain; [reflexivity|assumption|].
    apply forallb_forall. intros d Hd. destruct (N.eqb_spec c d) as [->|]; [|reflexivity].
    exfalso. apply H. cbn in Hd |- *. tauto.
Qed.
Lemma adds_quotes t : adds (flat_map quote t) (map RLit t).
Proof.
  replace (map RLit t) with (flat_map (fun c => [RLit c]) t) by (induction t; cbn; congruence).
  apply adds_flat_map. intros c _. apply adds_one_adds, adds_quote.
Qed.

(** Closing. *)
Lemma parse_syntax_reads t r : reads t r -> parse_syntax t = Done r.
Proof.
  intros H. unfold parse_syntax, init. destruct (H []) as (m & items & alts & Hm & -> & <-).
  cbn [obind]. unfold finish. now destruct Hm.
Qed.
