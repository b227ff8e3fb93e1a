(** The pieces of an expansion, with the groups marked. *)
From Coq Require Import PeanoNat.
From Verif Require Export ProofNest ProofUnchecked.

Lemma mark_quiet s c s' : st_mode s <> MEsc -> c <> c_ ")" -> mark s c s' = s'.
Proof.
  intros Hm Hc. unfold mark. destruct (N.eqb_spec c (c_ ")")); [contradiction|].
  destruct (st_mode s); try reflexivity; try contradiction;
    destruct (st_items s'); try reflexivity; destruct (st_stack s) as [|[[] ? ?] ?]; reflexivity.
Qed.
Lemma nest_step_quiet s c : st_mode s <> MEsc -> c <> c_ ")" -> nest_step s c = step s c.
Proof. intros Hm Hc. unfold nest_step. destruct (step s c); cbn [obind]; [|reflexivity..]. now rewrite mark_quiet. Qed.
Lemma ready_not_esc m : ready m -> m <> MEsc.
Proof. now intros []. Qed.

Definition nadds (t : str) (rs : list re) : Prop :=
  forall m items alts stack, ready m -> exists m', ready m' /\
    nest_run t (mkState m items alts stack) = Done (mkState m' (rev rs ++ items) alts stack).
Definition nadds_one (t : str) (r : re) : Prop :=
  forall m items alts stack, ready m ->
    nest_run t (mkState m items alts stack) = Done (mkState MNormal (r :: items) alts stack).
Definition nreads (t : str) (r : re) : Prop :=
  forall stack, exists m items alts, ready m /\
    nest_run t (mkState MNormal [] [] stack) = Done (mkState m items alts stack) /\ body items alts = r.

Lemma nadds_nil : nadds [] [].
Proof. intros m items alts stack Hm. exists m. split; [assumption|reflexivity]. Qed.
Lemma nadds_app t u rs qs : nadds t rs -> nadds u qs -> nadds (t ++ u) (rs ++ qs).
Proof.
  intros Ht Hu m items alts stack Hm. rewrite nest_run_app.
  destruct (Ht m items alts stack Hm) as (m1 & Hm1 & ->). cbn [obind].
  destruct (Hu m1 (rev rs ++ items) alts stack Hm1) as (m2 & Hm2 & ->).
  exists m2. split; [assumption|]. now rewrite rev_app_distr, app_assoc.
Qed.
Lemma nadds_one_nadds t r : nadds_one t r -> nadds t [r].
Proof. intros H m items alts stack Hm. exists MNormal. split; [constructor|]. cbn. now apply H. Qed.
Lemma nadds_flat_map {A} (f : A -> str) (g : A -> list re) l :
  (forall x, In x l -> nadds (f x) (g x)) -> nadds (flat_map f l) (flat_map g l).
Proof.
  induction l as [|x l IH]; cbn; intros H; [apply nadds_nil|].
  apply nadds_app; [apply H|apply IH]; auto.
Qed.
Lemma nadds_nreads t rs : nadds t rs -> nreads t (mk_cat rs).
Proof.
  intros H stack. destruct (H MNormal [] [] stack ready_normal) as (m & Hm & E).
  exists m, (rev rs), []. split; [assumption|]. rewrite app_nil_r in E. split; [exact E|].
  unfold body. cbn. now rewrite rev_involutive.
Qed.
Lemma nest_run_branches l : Forall (fun x => nadds (fst x) (snd x)) l ->
  forall m items alts stack, ready m -> exists m' items' alts', ready m' /\
    nest_run (bars l) (mkState m items alts stack) = Done (mkState m' items' alts' stack) /\
    rev (mk_cat (rev items') :: alts') = rev (mk_cat (rev items) :: alts) ++ cats l.
Proof.
  induction l as [|[t rs] l IH]; intros Hl m items alts stack Hm.
  - exists m, items, alts. repeat split; [assumption|]. cbn. now rewrite app_nil_r.
  - inversion_clear Hl. rename H into Ht, H0 into Hl. cbn [fst snd] in Ht.
    change (bars ((t, rs) :: l)) with (c_ "|" :: t ++ bars l).
    rewrite nest_run_cons, nest_step_quiet, step_bar by (assumption || (cbn; now apply ready_not_esc) || easy). cbn [obind]. rewrite nest_run_app.
    destruct (Ht MNormal [] (mk_cat (rev items) :: alts) stack ready_normal) as (m1 & Hm1 & ->).
    cbn [obind]. rewrite app_nil_r.
    destruct (IH Hl m1 (rev rs) (mk_cat (rev items) :: alts) stack Hm1) as (m2 & i2 & a2 & Hm2 & -> & E).
    exists m2, i2, a2. split; [assumption|]. split; [reflexivity|]. rewrite E, rev_involutive.
    cbn. now rewrite <- !app_assoc.
Qed.
Lemma nreads_branches t rs l : nadds t rs -> Forall (fun x => nadds (fst x) (snd x)) l ->
  nreads (t ++ bars l) (mk_alt (mk_cat rs :: cats l)).
Proof.
  intros Ht Hl stack. rewrite nest_run_app.
  destruct (Ht MNormal [] [] stack ready_normal) as (m1 & Hm1 & ->). cbn [obind]. rewrite app_nil_r.
  destruct (nest_run_branches l Hl m1 (rev rs) [] stack Hm1) as (m2 & items & alts & Hm2 & -> & E).
  exists m2, items, alts. split; [assumption|]. split; [reflexivity|]. unfold body. rewrite E.
  now rewrite rev_involutive.
Qed.
Definition closed_kind (k : kind) (r : re) : re := RCap (match k with KCapture n => n | KGroup => None end) r.
Lemma nest_close m items alts f stack : ready m ->
  nest_step (mkState m items alts (f :: stack)) (c_ ")") =
  Done (mkState MNormal (closed_kind (fr_kind f) (body items alts) :: fr_items f) (fr_alts f) stack).
Proof. intros Hm. unfold nest_step. rewrite ProofRegex.step_close by assumption. destruct f as [[] fi fa], Hm; reflexivity. Qed.
Lemma nest_inside t r k items alts stack : nreads t r ->
  nest_run (t ++ s_ ")") (mkState MNormal [] [] (mkFrame k items alts :: stack)) =
  Done (mkState MNormal (closed_kind k r :: items) alts stack).
Proof.
  intros H. rewrite nest_run_app. destruct (H (mkFrame k items alts :: stack)) as (m & i & a & Hm & -> & <-).
  cbn [obind]. change (s_ ")") with [c_ ")"]. rewrite nest_run_cons, nest_close by assumption. reflexivity.
Qed.
Lemma nest_run_quiet t s s' : (forall c, In c t -> c <> c_ ")" /\ c <> c_ "\") -> st_mode s <> MEsc -> run t s = Done s' -> nest_run t s = Done s'.
Proof.
  revert s. induction t as [|c t IH]; intros s Hc Hm H; [exact H|].
  destruct (Hc c (or_introl eq_refl)) as [H1 H2]. rewrite nest_run_cons, nest_step_quiet by assumption.
  cbn [run] in H. destruct (step s c) as [s1| |] eqn:E; try discriminate H. cbn [obind] in *.
  apply IH; [intros d Hd; apply Hc; now right| |exact H].
  intros Hs. now apply (step_escape s c s1 E) in Hs.
Qed.
Lemma nadds_one_group t r : nreads t r -> nadds_one (s_ "(?:" ++ t ++ s_ ")") (RCap None r).
Proof.
  intros H m items alts stack Hm. rewrite nest_run_app.
  rewrite (nest_run_quiet (s_ "(?:") _ (mkState MNormal [] [] (mkFrame KGroup items alts :: stack))).
  - cbn [obind]. now rewrite (nest_inside _ _ _ _ _ _ H).
  - cbn. intuition (subst; discriminate).
  - cbn. now apply ready_not_esc.
  - now destruct Hm.
Qed.
Lemma nadds_one_capture t r : (forall u, t <> c_ "?" :: u) -> nreads t r ->
  nadds_one (s_ "(" ++ t ++ s_ ")") (RCap None r).
Proof.
  intros Hq H m items alts stack Hm. rewrite nest_run_app.
  rewrite (nest_run_quiet (s_ "(") _ (mkState MOpen items alts stack)).
  - cbn [obind].
    replace (nest_run (t ++ s_ ")") (mkState MOpen items alts stack)) with
      (nest_run (t ++ s_ ")") (mkState MNormal [] [] (mkFrame (KCapture None) items alts :: stack)));
      [now rewrite (nest_inside _ _ _ _ _ _ H)|].
    destruct t as [|c t]; [reflexivity|]. cbn [app]. rewrite !nest_run_cons. f_equal. unfold nest_step.
    cbn [step st_mode]. destruct (N.eqb_spec c (c_ "?")) as [->|]; [now destruct (Hq t)|].
    change (push_frame (KCapture None) (mkState MOpen items alts stack)) with (mkState MNormal [] [] (mkFrame (KCapture None) items alts :: stack)).
    destruct (step_normal _ c) as [s'| |]; cbn [obind]; [|reflexivity..]. f_equal. unfold mark. cbn [st_mode st_stack].
    now destruct (st_items s').
  - cbn. intuition (subst; discriminate).
  - cbn. now apply ready_not_esc.
  - now destruct Hm.
Qed.
Lemma nadds_one_named n t r :
  n <> [] -> (forall acc s, exists acc', run n (set_mode (MName acc) s) = Done (set_mode (MName acc') s) /\ acc' = rev n ++ acc) ->
  (forall c, In c n -> c <> c_ ")" /\ c <> c_ "\") ->
  nreads t r -> nadds_one (s_ "(?P<" ++ n ++ s_ ">" ++ t ++ s_ ")") (RCap (Some n) r).
Proof.
  intros Hn Hrun Hc H m items alts stack Hm. rewrite nest_run_app.
  rewrite (nest_run_quiet (s_ "(?P<") _ (set_mode (MName []) (mkState MNormal items alts stack))).
  - cbn [obind]. rewrite nest_run_app. destruct (Hrun [] (mkState MNormal items alts stack)) as (a & E & ->).
    rewrite (nest_run_quiet n _ _ Hc) with (2 := E) by discriminate.
    cbn [obind]. rewrite app_nil_r. rewrite (nest_run_app (s_ ">")).
    rewrite (nest_run_quiet (s_ ">") _ (mkState MNormal [] [] (mkFrame (KCapture (Some n)) items alts :: stack))).
    + cbn [obind]. now rewrite (nest_inside _ _ _ _ _ _ H).
    + cbn. intuition (subst; discriminate).
    + discriminate.
    + cbn [run s_ step set_mode st_mode]. unfold step_name. change (c_ ">" =? c_ ">") with true. cbn [obind].
      destruct (rev n) eqn:E'.
      * apply (f_equal (@rev N)) in E'. rewrite rev_involutive in E'. now subst.
      * cbn iota. cbn [obind run]. rewrite <- E', rev_involutive. reflexivity.
  - cbn. intuition (subst; discriminate).
  - cbn. now apply ready_not_esc.
  - now destruct Hm.
Qed.
Lemma nadds_question t r : nadds_one t r -> nadds (t ++ s_ "?") [RRep 0 (Some 1) true r].
Proof.
  intros H m items alts stack Hm. exists MRep. split; [constructor|]. rewrite nest_run_app, H by assumption. cbn [obind].
  apply nest_run_quiet; [cbn; intuition (subst; discriminate)|discriminate|reflexivity].
Qed.
Lemma nadds_quote c : nadds_one (quote c) (RLit c).
Proof.
  intros m items alts stack Hm. pose proof (adds_quote c m items alts stack Hm) as E.
  unfold quote in *. destruct (in_dec N.eq_dec c regex_special) as [H|H].
  - assert (Hc : nest_step (mkState MEsc items alts stack) c = Done (mkState MNormal (RLit c :: items) alts stack)).
    { cbn in H. repeat destruct H as [<-|H]; try easy. }
    rewrite nest_run_cons. rewrite nest_step_quiet by (cbn; (now apply ready_not_esc) || discriminate).
    replace (step _ (c_ "\")) with (Done (mkState MEsc items alts stack)) by now destruct Hm.
    cbn [obind]. now rewrite nest_run_cons, Hc.
  - apply nest_run_quiet; [|cbn; now apply ready_not_esc|exact E].
    intros d [<-|[]]. split; intros ->; apply H; cbn; tauto.
Qed.
Lemma nadds_quotes t : nadds (flat_map quote t) (map RLit t).
Proof.
  replace (map RLit t) with (flat_map (fun c => [RLit c]) t) by (induction t; cbn; congruence).
  apply nadds_flat_map. intros c _. apply nadds_one_nadds, nadds_quote.
Qed.
Lemma nreads_nest t r : nreads t r -> nest t = Some (depth r).
Proof.
  intros H. unfold nest, init. destruct (H []) as (m & items & alts & Hm & -> & <-).
  cbn [obind]. unfold finish. now destruct Hm.
Qed.

(** A regex in a group. *)
Lemma mark_lift k s c s' : step s c = Done s' -> mark (lift k s) c (lift k s') = lift k (mark s c s').
Proof.
  intros E. unfold mark. cbn [lift st_mode st_items st_stack st_alts].
  destruct (st_mode s) eqn:Em; try reflexivity.
  - destruct (st_items s') eqn:Ei; try reflexivity. destruct (N.eqb_spec c (c_ ")")) as [->|].
    + unfold step in E. rewrite Em in E. cbn in E. unfold pop_frame in E. destruct (st_stack s) as [|[[] ? ?] ?]; [discriminate|reflexivity..].
    + destruct (st_stack s) as [|[[] ? ?] ?]; cbn [app]; try reflexivity; destruct k as [|[[] ? ?] ?]; reflexivity.
  - destruct (st_items s') eqn:Ei; try reflexivity. destruct (N.eqb_spec c (c_ ")")) as [->|].
    + unfold step in E. rewrite Em in E. cbn in E. unfold pop_frame in E. cbn in E. destruct (st_stack s) as [|[[] ? ?] ?]; [discriminate|reflexivity..].
    + destruct (st_stack s) as [|[[] ? ?] ?]; cbn [app]; try reflexivity; destruct k as [|[[] ? ?] ?]; reflexivity.
  - destruct (st_items s') as [|[] ?]; try reflexivity. now destruct (st_mode s').
  - destruct (st_items s') eqn:Ei; try reflexivity. destruct (N.eqb_spec c (c_ ")")) as [->|].
    + unfold step in E. rewrite Em in E. cbn in E. unfold pop_frame in E. cbn in E. destruct (st_stack s) as [|[[] ? ?] ?]; [discriminate|reflexivity..].
    + destruct (st_stack s) as [|[[] ? ?] ?]; cbn [app]; try reflexivity; destruct k as [|[[] ? ?] ?]; reflexivity.
Qed.
Lemma nest_run_lift k t : forall s s', nest_run t s = Done s' -> nest_run t (lift k s) = Done (lift k s').
Proof.
  induction t as [|c t IH]; intros s s'; cbn [nest_run]; [intros H; now injection H as <-|].
  unfold nest_step. destruct (step s c) as [s1| |] eqn:E; cbn [obind]; [|discriminate..].
  intros H. rewrite (step_lift k _ _ _ E). cbn [obind]. rewrite mark_lift by assumption. now apply IH.
Qed.
Lemma parse_nreads t r : parse_syntax t = Done r -> exists n, nreads t n /\ nest t = Some (depth n).
Proof.
  intros H. destruct (nest_defined _ _ H) as (n & E & _ & Hr & Hs). exists (body (st_items n) (st_alts n)).
  assert (R : nreads t (body (st_items n) (st_alts n))).
  { intros k. exists (st_mode n), (st_items n), (st_alts n). split; [assumption|]. split; [|reflexivity].
    pose proof (nest_run_lift k t _ _ E) as L. unfold lift, init in L. cbn [st_mode st_items st_alts st_stack app] in L.
    rewrite Hs in L. exact L. }
  split; [exact R|]. now apply nreads_nest.
Qed.

(** ** Depths *)
Fixpoint deepest_of (l : list re) : nat := match l with [] => 0 | r :: l => Nat.max (depth r) (deepest_of l) end.
Lemma deepest_of_app a b : deepest_of (a ++ b) = Nat.max (deepest_of a) (deepest_of b).
Proof. induction a as [|r a IH]; cbn; [reflexivity|]. rewrite IH. lia. Qed.
Lemma deepest_of_In r l : In r l -> (depth r <= deepest_of l)%nat.
Proof. induction l as [|x l IH]; cbn; [easy|]. intros [->|H]; [lia|]. specialize (IH H). lia. Qed.
Lemma deepest_of_le n l : (forall r, In r l -> (depth r <= n)%nat) -> (deepest_of l <= n)%nat.
Proof. induction l as [|x l IH]; cbn; intros H; [lia|]. apply Nat.max_lub; auto. Qed.
Lemma depth_mk_cat l : (depth (mk_cat l) <= S (deepest_of l))%nat.
Proof.
  induction l as [|r [|r' l] IH]; [cbn; lia|cbn; lia|].
  change (mk_cat (r :: r' :: l)) with (RCat r (mk_cat (r' :: l))). cbn [depth].
  change (deepest_of (r :: r' :: l)) with (Nat.max (depth r) (deepest_of (r' :: l))).
  destruct (mk_cat (r' :: l)) eqn:E; try lia.
  all: apply Nat.max_lub; [lia|]; destruct l; [cbn in E; subst; cbn [deepest_of depth] in *; lia|discriminate].
Qed.
Lemma depth_mk_alt l : (depth (mk_alt l) <= S (deepest_of l))%nat.
Proof.
  induction l as [|r [|r' l] IH]; [cbn; lia|cbn; lia|].
  change (mk_alt (r :: r' :: l)) with (RAlt r (mk_alt (r' :: l))). cbn [depth].
  change (deepest_of (r :: r' :: l)) with (Nat.max (depth r) (deepest_of (r' :: l))).
  destruct (mk_alt (r' :: l)) eqn:E; try lia.
  all: apply Nat.max_lub; [lia|]; destruct l; [cbn in E; subst; cbn [deepest_of depth] in *; lia|discriminate].
Qed.
Lemma depth_in_cat a r b : b <> [] -> (S (depth r) <= depth (mk_cat (a ++ r :: b)))%nat.
Proof.
  intros Hb. induction a as [|x a IH].
  - destruct b as [|y b]; [easy|]. change (mk_cat ([] ++ r :: y :: b)) with (RCat r (mk_cat (y :: b))). cbn [depth]. lia.
  - assert (E : exists y c, a ++ r :: b = y :: c) by (destruct a; cbn; eauto). destruct E as (y & c & E).
    cbn [app]. rewrite E in *. change (mk_cat (x :: y :: c)) with (RCat x (mk_cat (y :: c))). cbn [depth].
    destruct (mk_cat (y :: c)); lia.
Qed.
