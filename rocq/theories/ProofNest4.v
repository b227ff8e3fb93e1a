(** Regexes of every depth. *)
From Coq Require Import PeanoNat.
From Verif Require Export ProofNest3.

Fixpoint starred (n : nat) : re := match n with O => RLit (c_ "a") | S n => RRep 0 None true (starred n) end.
Definition stars (n : nat) : str := c_ "a" :: repeat (c_ "*") n.
Lemma run_stars n : forall m k, ready m ->
  run (repeat (c_ "*") n) (mkState m [starred k] [] []) = Done (mkState (match n with O => m | _ => MRep end) [starred (n + k)] [] []).
Proof.
  induction n as [|n IH]; intros m k Hm; [reflexivity|]. cbn [repeat run].
  replace (step (mkState m [starred k] [] []) (c_ "*")) with (Done (mkState MRep [starred (S k)] [] [])) by now destruct Hm.
  cbn [obind]. rewrite IH by constructor. rewrite Nat.add_succ_r. now destruct n.
Qed.
Lemma stars_parse n : parse_syntax (stars n) = Done (starred n).
Proof.
  unfold parse_syntax, stars. cbn [run]. change (step init (c_ "a")) with (Done (mkState MNormal [starred 0] [] [])). cbn [obind].
  rewrite run_stars by constructor. cbn [obind]. rewrite Nat.add_0_r. now destruct n.
Qed.
Lemma stars_plain n c : In c (stars n) -> c = c_ "a" \/ c = c_ "*".
Proof. intros [<-|H]; [now left|]. right. now apply repeat_spec in H. Qed.
Lemma depth_starred n : depth (starred n) = n.
Proof. induction n; cbn [starred depth]; congruence. Qed.
Lemma stars_nest n : nest (stars n) = Some n.
Proof.
  pose proof (stars_parse n) as H. unfold parse_syntax in H. unfold nest.
  destruct (run (stars n) init) as [s| |] eqn:E; try discriminate H.
  rewrite (nest_run_quiet (stars n) init s); [|intros c [-> | ->]%stars_plain; split; discriminate|discriminate|exact E].
  cbn [obind] in *. rewrite H. now rewrite depth_starred.
Qed.
Lemma stars_new n : regex_new (stars n) = Done (starred n).
Proof.
  unfold regex_new. rewrite stars_parse. cbn [obind]. enough (E : group_names (starred n) = []) by now rewrite E.
  unfold group_names. enough (E : groups (starred n) = []) by now rewrite E. induction n; [reflexivity|exact IHn].
Qed.
Lemma parse_a : exists e, expression_parse (s_ "{a}") = RetOk e /\ parameters e = [mkParameter (mkspan 1 1 (s_ "a")) 0].
Proof. eexists. split; [vm_compute; reflexivity|vm_compute; reflexivity]. Qed.
Lemma own_limit limit digits spaces words to_string : (12 <= limit)%nat -> exists v, ~ In (c_ "(") v /\
  (exists r, limited_new limit v = Done r) /\
  (exists t r, regex_with_parameters digits spaces words to_string (fun _ => Some v) (s_ "{a}") = XOk t r) /\
  limited_regex_with_parameters limit digits spaces words to_string (fun _ => Some v) (s_ "{a}") = XRegex.
Proof.
  intros Hl. exists (stars limit). assert (Hp : ~ In (c_ "(") (stars limit)) by (intros [H|H]%stars_plain; discriminate H).
  split; [exact Hp|]. split; [|split].
  - exists (starred limit). rewrite limited_new_spec. split; [apply stars_new|]. exists limit. split; [apply stars_nest|lia].
  - destruct parse_a as (e & E' & Hparams).
    assert (Hpl : forall p, plain (fun _ : span => Some (stars limit)) p) by (intros p v [= <-]; exact Hp).
    assert (Hv : forall p, custom_valid frag (fun _ : span => Some (stars limit)) any_re p)
      by (intros p; exists (starred limit); split; [apply stars_new|exact Logic.I]).
    destruct (whole_read digits spaces words to_string (fun _ : span => Some (stars limit)) (s_ "{a}") e E') as [[Ew _]|[_ Hn]].
    + apply Forall_forall. intros p _. eapply custom_valid_checked, Hv.
    + intros p _. apply plain_adds; auto.
    + do 2 eexists. exact Ew.
    + exfalso. apply Hn. rewrite groups_whole. unfold group_list. rewrite Hparams. cbn [map List.concat].
      rewrite (plain_groups _ _ _ _ _ _ _ (Hpl _) (Hv _)). constructor.
  - destruct parse_a as (e & E' & Hparams).
    assert (Hb : forall p, between digits spaces words to_string p (stars limit) (starred limit) = stars limit)
      by (intros p; unfold between; now rewrite (proj2 (contains_false _ _) Hp)).
    apply (limited_regex_error limit digits spaces words to_string _ Hl _ e E').
    + apply Forall_forall. intros p _. unfold regexes. exists (starred limit), (starred limit). rewrite Hb. split; [apply stars_new|apply stars_parse].
    + apply Forall_forall. intros p _ (v & d & [= <-] & H & _). contradiction.
    + rewrite Hparams. intros H. inversion_clear H as [|? ? H1 _].
      specialize (H1 (stars limit) (starred limit) limit eq_refl (stars_new limit)). rewrite Hb in H1. specialize (H1 (stars_nest limit)). lia.
Qed.
(** ** Laws *)
Lemma nest_group t r d : parse_syntax t = Done r -> nest t = Some d ->
  nest (s_ "(" ++ t ++ s_ ")") = Some (S d) /\ nest (s_ "(?:" ++ t ++ s_ ")") = Some (S d) /\ nest (s_ "(" ++ t ++ s_ ")?") = Some (S (S d)).
Proof.
  intros H Hd. destruct (parse_nreads t r H) as (n & Hn & E). replace d with (depth n) in * by congruence.
  pose proof (nadds_one_capture t n (parse_no_question t r H) Hn) as A. repeat split.
  - rewrite (nreads_nest _ _ (nadds_nreads _ _ (nadds_one_nadds _ _ A))). reflexivity.
  - rewrite (nreads_nest _ _ (nadds_nreads _ _ (nadds_one_nadds _ _ (nadds_one_group t n Hn)))). reflexivity.
  - change (s_ ")?") with (s_ ")" ++ s_ "?"). rewrite (app_assoc t), (app_assoc (s_ "(")).
    rewrite (nreads_nest _ _ (nadds_nreads _ _ (nadds_question _ _ A))). reflexivity.
Qed.
Lemma nest_bounded t r : regex_new t = Done r -> exists d, nest t = Some d /\
  forall limit, limited_new limit t = if Nat.leb d limit then Done r else Invalid.
Proof. intros H. destruct (regex_new_nest t r H) as [d Hd]. exists d. split; [exact Hd|]. intros limit. now apply limited_new_le. Qed.
Lemma limited_custom limit digits spaces words to_string get s e : (12 <= limit)%nat -> expression_parse s = RetOk e ->
  Forall (regexes digits spaces words to_string get) (parameters e) ->
  let limited := limited_regex_with_parameters limit digits spaces words to_string get s in
  (Forall (fun p => ~ too_deep limit get p) (parameters e) -> Forall (room limit digits spaces words to_string get) (parameters e) ->
   limited = regex_with_parameters digits spaces words to_string get s) /\
  (Forall (fun p => ~ too_deep limit get p) (parameters e) -> ~ Forall (room limit digits spaces words to_string get) (parameters e) ->
   limited = XRegex) /\
  (forall e1 p e2 v, e = e1 ++ ExParameter p :: e2 -> Forall (fun p => ~ too_deep limit get p) (parameters e1) -> too_deep limit get p ->
   get (par_input p) = Some v -> limited = XExpansion (RenameRegexGroup (par_input p) v)).
Proof.
  intros Hl H Hr. split; [|split].
  - intros. eapply limited_same; eassumption.
  - intros. eapply limited_regex_error; eassumption.
  - intros e1 p e2 v -> Ht Hp Hv. eapply limited_rename; eassumption.
Qed.
Lemma limited_least limit : (limit < 12)%nat -> exists s t r, expression_regex s = XOk t r /\ limited_regex limit s = XRegex.
Proof.
  intros H. exists (s_ "{float}"). do 2 eexists. split; [vm_compute; reflexivity|].
  do 12 (destruct limit as [|limit]; [vm_compute; reflexivity|]). lia.
Qed.
