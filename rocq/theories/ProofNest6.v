(** How deep a regex is nested: the model agrees with the grammar. *)
From Coq Require Import PeanoNat.
From Verif Require Export ProofNest5 ProofSyntax2.

(** ** Classes *)
Definition inside (m : mode) : bool := match m with MEsc | MNormal | MRep | MWord => false | _ => true end.
Lemma nrun_in c t s : inside (st_mode s) = true -> nest_run (c :: t) s = obind (step s c) (nest_run t).
Proof.
  intros H. rewrite nest_run_cons. unfold nest_step. destruct (step s c) as [s'| |]; [|reflexivity..]. cbn [obind]. f_equal.
  unfold mark. now destruct (st_mode s).
Qed.
Ltac inside := first [reflexivity | match goal with H : boundary _ _ _ _ |- _ => destruct H; reflexivity end | match goal with |- context [if ?n then _ else _] => destruct n; reflexivity end].
Lemma nrun_hexes t : forall h d v s, hexes t h = Done (inr d) -> nest_run (t ++ v) (set_mode (MHex h) s) = nest_run v (push_item (RLit d) s).
Proof.
  induction t as [|c t IH]; intros h d v s; [discriminate|]. cbn [hexes app]. rewrite nrun_in by reflexivity. cbn [set_mode st_mode step].
  destruct (step_hex h c) as [[h'|x]| |]; cbn [obind]; try discriminate; [exact (IH h' d v s)|].
  destruct t; [|discriminate]. intros [= <-]. reflexivity.
Qed.
Lemma nrun_class_hexes t n l a : forall h d v s, hexes t h = Done (inr d) ->
  nest_run (t ++ v) (set_mode (MClassHex n l a h) s) = obind (class_lit n l a s d) (nest_run v).
Proof.
  induction t as [|c t IH]; intros h d v s; [discriminate|]. cbn [hexes app]. rewrite nrun_in by reflexivity. cbn [set_mode st_mode step].
  destruct (step_hex h c) as [[h'|x]| |]; cbn [obind]; try discriminate; [exact (IH h' d v s)|].
  destruct t; [|discriminate]. intros [= <-]. reflexivity.
Qed.
Lemma nrun_escape t d v s : char_escape t d -> nest_run (t ++ v) (set_mode MEsc s) = nest_run v (push_item (RLit d) s).
Proof.
  intros H. apply char_escape_iff in H as (c & [[-> H]|(u & n & -> & Hn & H)]); cbn [app]; rewrite nest_run_cons; unfold nest_step; cbn [set_mode st_mode step].
  - rewrite H. reflexivity.
  - rewrite Hn. cbn [obind]. rewrite <- (nrun_hexes u _ d v s H). unfold mark. cbn [st_mode set_mode st_items]. destruct (st_items s) as [|[] ?]; try reflexivity.
Qed.
Lemma nrun_class_escape t d v n l a s : char_escape t d -> nest_run (t ++ v) (set_mode (MClassEsc n l a) s) = obind (class_lit n l a s d) (nest_run v).
Proof.
  intros H. apply char_escape_iff in H as (c & [[-> H]|(u & k & -> & Hn & H)]); cbn [app]; rewrite nrun_in by reflexivity; cbn [set_mode st_mode step].
  - rewrite H. reflexivity.
  - rewrite Hn. cbn [obind]. exact (nrun_class_hexes u n l a _ d v s H).
Qed.
(** A char in a class. *)
Lemma nrun_class_char t a u v m n acc s : class_char (s_ "[]&~-\") t a -> boundary m n acc (t ++ u) ->
  nest_run (t ++ v) (set_mode m s) = nest_run v (set_mode (MClassLit n acc a) s).
Proof.
  intros [c Hc|c d Hc] H; cbn [app] in *; rewrite nrun_in by inside; rewrite (boundary_step _ _ _ _ _ s H).
  - rewrite step_class_plain by exact Hc. reflexivity.
  - intros ->. apply Hc. cbn. tauto.
  - intros ->. apply Hc. cbn. tauto.
  - intros ->. apply Hc. cbn. tauto.
  - change (step_class n acc s (c_ "\")) with (Done (set_mode (MClassEsc n acc None) s)). cbn [obind].
    now rewrite (nrun_class_escape c d).
  - easy.
  - easy.
  - easy.
Qed.
Lemma nrun_range_end e b n acc a u s : class_char (s_ "]-\") e b -> a <= b ->
  nest_run (e ++ u) (set_mode (MClassRange n acc a) s) = nest_run u (set_mode (MClassIn n (CRange a b :: acc)) s).
Proof.
  intros He Hle. apply N.ltb_ge in Hle. destruct He as [c Hc|c d Hc]; cbn [app]; rewrite nrun_in by inside; cbn [set_mode st_mode step].
  - destruct (N.eqb_spec c (c_ "]")) as [->|]; [exfalso; apply Hc; cbn; tauto|].
    destruct (N.eqb_spec c (c_ "-")) as [->|]; [exfalso; apply Hc; cbn; tauto|].
    destruct (N.eqb_spec c (c_ "\")) as [->|]; [exfalso; apply Hc; cbn; tauto|].
    unfold add_range. now rewrite Hle.
  - change (c_ "\" =? c_ "]") with false. change (c_ "\" =? c_ "-") with false. change (c_ "\" =? c_ "\") with true.
    cbn [obind]. change (set_mode (MClassEsc n acc (Some a)) _) with (set_mode (MClassEsc n acc (Some a)) s).
    rewrite (nrun_class_escape c d) by exact Hc. unfold class_lit, add_range. now rewrite Hle.
Qed.
Lemma nrun_class_items u l : class_items u l -> forall m n acc s, boundary m n acc u ->
  nest_run (u ++ s_ "]") (set_mode m s) = Done (push_item (RClass (mkClass n (rev acc ++ l))) s).
Proof.
  induction 1 as [|t a u l Ht Hu Hl IH|t a e b u l Ht He Hab Hl IH|u l Hu Hl IH|c i u l Hc Hu Hl IH]; intros m n acc s Hm.
  - cbn [app]. change (s_ "]") with [c_ "]"]. rewrite nrun_in by inside; rewrite (boundary_end _ _ _ _ Hm), app_nil_r. reflexivity.
  - rewrite <- app_assoc, (nrun_class_char t a u _ m n acc _ Ht Hm).
    rewrite (IH _ n (CRange a a :: acc)) by now constructor. cbn [rev]. now rewrite <- app_assoc.
  - rewrite <- !app_assoc, (nrun_class_char t a _ _ m n acc _ Ht Hm). change (s_ "-") with [c_ "-"]. cbn [app]. rewrite nrun_in by inside.
    change (step (set_mode (MClassLit n acc a) s) (c_ "-")) with (Done (set_mode (MClassRange n acc a) s)). cbn [obind].
    rewrite (nrun_range_end _ _ _ _ _ _ _ He Hab).
    rewrite (IH _ n (CRange a b :: acc)) by constructor. cbn [rev]. now rewrite <- app_assoc.
  - change (s_ "-" ++ u) with (c_ "-" :: u) in *. cbn [app]. rewrite nrun_in by inside.
    assert (Hd : starts (c_ "-") (c_ "-" :: u)) by now exists u.
    inversion Hm as [n' acc' u'|n' a acc' u' Hv|n' acc' u' Hv|n' acc' u' Hv|n' acc' u' Hv|u' Hv]; subst; try now destruct Hv.
    + change (step (set_mode (MClassIn n acc) s) (c_ "-")) with (Done (set_mode (MClassDash n acc) s)). cbn [obind].
      rewrite (IH _ n (CRange (c_ "-") (c_ "-") :: acc)) by now constructor. cbn [rev]. now rewrite <- app_assoc.
    + specialize (Hv Hd). injection Hv as ->. apply class_items_nil in Hl as ->. cbn [rev]. rewrite <- !app_assoc. cbn [app].
      destruct s as [? ? ? ?]. unfold set_mode. cbn. unfold push_item. cbn. now rewrite <- app_assoc.
    + specialize (Hv Hd). injection Hv as ->. apply class_items_nil in Hl as ->.
      destruct s as [? ? ? ?]. unfold set_mode. cbn. unfold push_item. reflexivity.
  - cbn [app] in *. rewrite nrun_in by inside; rewrite (boundary_step _ _ _ _ _ s Hm) by easy.
    change (step_class n acc s (c_ "\")) with (Done (set_mode (MClassEsc n acc None) s)). cbn [obind].
    rewrite nrun_in by inside. cbn [set_mode st_mode step]. destruct (perl_item _ _ Hc) as (ng & p & ->). apply escape_perl in Hc.
    rewrite Hc. cbn [obind]. change (set_mode (MClassPerl n (CPerl ng p :: acc)) _) with (set_mode (MClassPerl n (CPerl ng p :: acc)) s).
    rewrite (IH _ n (CPerl ng p :: acc)) by now constructor. cbn [rev]. now rewrite <- app_assoc.
Qed.
Lemma nrun_dashes n k u l s :
  nest_run (repeat (c_ "-") k ++ u) (set_mode (MClass1 n l) s) = nest_run u (set_mode (MClass1 n (repeat (CRange (c_ "-") (c_ "-")) k ++ l)) s).
Proof.
  revert l. induction k as [|k IH]; intros l; [reflexivity|]. cbn [repeat app]. rewrite nrun_in by inside.
  change (step (set_mode (MClass1 n l) s) (c_ "-")) with (Done (set_mode (MClass1 n (CRange (c_ "-") (c_ "-") :: l)) s)). cbn [obind].
  rewrite IH. repeat f_equal. clear IH. induction k as [|k IH]; [reflexivity|]. cbn [repeat app]. now rewrite IH.
Qed.
Lemma nrun_class_inside u l n s : class_inside u l -> (n = false -> ~ starts (c_ "^") u) ->
  nest_run (u ++ s_ "]") (set_mode (if n then MClass1 true [] else MClass0) s) = Done (push_item (RClass (mkClass n l)) s).
Proof.
  intros [v k Hv|k v w Hv Hd Hk] Hn.
  - change (s_ "]" ++ v) with (c_ "]" :: v). cbn [app]. rewrite nrun_in by inside.
    replace (step (set_mode (if n then MClass1 true [] else MClass0) s) (c_ "]"))
      with (Done (set_mode (MClassIn n [CRange (c_ "]") (c_ "]")]) s)) by now destruct n.
    cbn [obind]. rewrite (nrun_class_items _ _ Hv _ n [CRange (c_ "]") (c_ "]")]) by constructor. reflexivity.
  - destruct k as [|k].
    + cbn [repeat app] in *. specialize (Hk eq_refl). rewrite (nrun_class_items _ _ Hv _ n []); [reflexivity|].
      destruct n; constructor; auto.
    + destruct n.
      * rewrite <- app_assoc, nrun_dashes, app_nil_r.
        rewrite (nrun_class_items _ _ Hv _ true (repeat (CRange (c_ "-") (c_ "-")) (S k))); [now rewrite rev_repeat|].
        constructor; [exact Hd|]. now left.
      * cbn [repeat app]. rewrite nrun_in by inside.
        change (step (set_mode MClass0 s) (c_ "-")) with (Done (set_mode (MClass1 false [CRange (c_ "-") (c_ "-")]) s)). cbn [obind].
        rewrite <- app_assoc, nrun_dashes.
        rewrite (nrun_class_items _ _ Hv _ false (repeat (CRange (c_ "-") (c_ "-")) k ++ [CRange (c_ "-") (c_ "-")])).
        -- rewrite rev_app_distr, rev_repeat. reflexivity.
        -- constructor; [exact Hd|]. left. now destruct k.
Qed.
Lemma nadds_one_class t k : class_text t k -> nadds_one t (RClass k).
Proof.
  intros H m items alts stack Hm. destruct H as [u l Hu Hs|u l Hu|u Hu].
  - change (s_ "[" ++ u ++ s_ "]") with (c_ "[" :: u ++ s_ "]"). rewrite nest_run_cons.
    replace (nest_step (mkState m items alts stack) (c_ "[")) with (Done (set_mode MClass0 (mkState m items alts stack)))
      by (rewrite nest_step_quiet; [now destruct Hm|now apply ready_not_esc|easy]). cbn [obind].
    now rewrite (nrun_class_inside u l false (mkState m items alts stack) Hu).
  - change (s_ "[^" ++ u ++ s_ "]") with (c_ "[" :: c_ "^" :: u ++ s_ "]"). rewrite nest_run_cons.
    replace (nest_step (mkState m items alts stack) (c_ "[")) with (Done (set_mode MClass0 (mkState m items alts stack)))
      by (rewrite nest_step_quiet; [now destruct Hm|now apply ready_not_esc|easy]). cbn [obind]. rewrite nrun_in by inside.
    change (step (set_mode MClass0 (mkState m items alts stack)) (c_ "^"))
      with (Done (set_mode (MClass1 true []) (mkState m items alts stack))). cbn [obind].
    now rewrite (nrun_class_inside u l true (mkState m items alts stack) Hu).
  - change (s_ "[" ++ u ++ s_ "&&b]") with (c_ "[" :: u ++ s_ "&&b]"). rewrite nest_run_cons.
    replace (nest_step (mkState m items alts stack) (c_ "[")) with (Done (set_mode MClass0 (mkState m items alts stack)))
      by (rewrite nest_step_quiet; [now destruct Hm|now apply ready_not_esc|easy]). cbn [obind].
    rewrite (nrun_class_char u (c_ "a") [] _ _ false [] _ Hu); [reflexivity|]. rewrite app_nil_r.
    inversion Hu; subst; constructor; try easy; intros [v Hv]; discriminate Hv.
Qed.

(** ** Repetitions *)
Lemma decimal_quiet t n : decimal t n -> forall c, In c t -> In c digits.
Proof. induction 1 as [c Hc|t n c Ht IH Hc]; intros d Hd; [now destruct Hd as [<-|[]]|]. apply in_app_or in Hd as [Hd|[<-|[]]]; auto. Qed.
Lemma operator_quiet op min max : operator op min max -> forall c, In c op -> c <> c_ ")" /\ c <> c_ "\".
Proof.
  assert (Hd : forall c, In c digits -> c <> c_ ")" /\ c <> c_ "\") by (intros c Hc; split; intros ->; cbn in Hc; intuition discriminate).
  intros H c Hc. destruct H as [| | |t n Ht Hn|t n Ht Hn|t n u k Ht Hu Hnk Hk].
  1-3: clear Hd; cbn in Hc; intuition (subst; discriminate).
  all: repeat (apply in_app_or in Hc as [Hc|Hc]);
    try match goal with H : decimal ?t _, K : In ?d ?t |- _ => exact (Hd d (decimal_quiet t _ H d K)) end; clear Hd; cbn in Hc; intuition (subst; discriminate).
Qed.
Lemma nrun_operator op min max : operator op min max -> forall m r items alts stack, ready m -> (m = MRep -> op <> s_ "?") ->
  nest_run op (mkState m (r :: items) alts stack) = Done (mkState MRep (RRep min max true r :: items) alts stack).
Proof.
  intros H m r items alts stack Hm Hq. apply nest_run_quiet; [exact (operator_quiet op min max H)|now apply ready_not_esc|].
  now apply run_operator.
Qed.

(** ** Groups *)
Lemma group_name_quiet n : group_name n -> forall c, In c n -> c <> c_ ")" /\ c <> c_ "\".
Proof.
  intros [c m Hc Hm] d [<-|Hd].
  - split; intros ->; cbn in Hc; intuition discriminate.
  - rewrite Forall_forall in Hm. specialize (Hm d Hd). split; intros ->; cbn in Hm; intuition discriminate.
Qed.
Lemma nrun_named n t r m items alts stack : group_name n -> nreads t r ->
  nest_run (n ++ s_ ">" ++ t ++ s_ ")") (set_mode (MName []) (mkState m items alts stack)) =
  Done (mkState MNormal (RCap (Some n) r :: items) alts stack).
Proof.
  intros Hn Hr. destruct (run_group_name n (mkState m items alts stack) Hn) as [H1 H2].
  rewrite nest_run_app, (nest_run_quiet n _ _ (group_name_quiet n Hn)) with (2 := H1) by discriminate. cbn [obind].
  change (s_ ">" ++ t ++ s_ ")") with (c_ ">" :: t ++ s_ ")"). rewrite nrun_in by reflexivity.
  replace (step _ _) with (Done (mkState MNormal [] [] (mkFrame (KCapture (Some n)) items alts :: stack))).
  - cbn [obind]. now rewrite (nest_inside _ _ _ _ _ _ Hr).
  - cbn [step set_mode st_mode]. unfold step_name. rewrite N.eqb_refl.
    destruct (rev n) eqn:E.
    + apply (f_equal (@rev N)) in E. rewrite rev_involutive in E. now subst.
    + rewrite <- E, rev_involutive. reflexivity.
Qed.
Lemma nadds_one_opens q k t r : opens q k -> nreads t r -> ~ starts (c_ "?") t ->
  nadds_one (q ++ t ++ s_ ")") (RCap (match k with Some n => n | None => None end) r).
Proof.
  intros [| |n Hn|n Hn] H Ht.
  - now apply nadds_one_group.
  - apply nadds_one_capture; [|exact H]. intros u ->. apply Ht. now exists u.
  - rewrite <- !app_assoc. intros m items alts stack Hm. rewrite nest_run_app.
    rewrite (nest_run_quiet (s_ "(?P<") _ (set_mode (MName []) (mkState m items alts stack)));
      [|cbn; intuition (subst; discriminate)|now apply ready_not_esc|now destruct Hm].
    cbn [obind]. now apply nrun_named.
  - rewrite <- !app_assoc. intros m items alts stack Hm. rewrite nest_run_app.
    rewrite (nest_run_quiet (s_ "(?<") _ (set_mode MOpenLt (mkState m items alts stack)));
      [|cbn; intuition (subst; discriminate)|now apply ready_not_esc|now destruct Hm].
    cbn [obind]. rewrite <- (nrun_named n t r m items alts stack Hn H). destruct Hn as [c n Hc Hn]. cbn [app].
    rewrite !nrun_in by reflexivity. f_equal. cbn [step set_mode st_mode].
    destruct (contains (s_ "=!") c) eqn:E; [|reflexivity]. exfalso. apply contains_In in E. cbn [s_] in E.
    revert Hc. apply contains_false. cbn in E. destruct E as [<-|[<-|[]]]; reflexivity.
Qed.

(** ** Depths *)
(** The parts of a concatenation: neither concatenations nor alternations themselves. *)
Definition part (r : re) : Prop := match r with RCat _ _ | RAlt _ _ => False | _ => True end.
Definition branch (r : re) : Prop := match r with RAlt _ _ => False | _ => True end.
Lemma depth_cat l : Forall part l -> depth (mk_cat l) = together (map depth l).
Proof.
  intros H. induction H as [|r l Hr Hl IH]; [reflexivity|]. destruct l as [|r' l]; [reflexivity|].
  change (mk_cat (r :: r' :: l)) with (RCat r (mk_cat (r' :: l))). cbn [depth].
  destruct l as [|r'' l].
  - cbn [mk_cat map together list_max fold_right]. inversion Hl as [|x y Hp Hq]; subst. destruct r'; try contradiction; cbn; lia.
  - replace (match mk_cat (r' :: r'' :: l) with RCat _ _ => depth (mk_cat (r' :: r'' :: l)) | _ => S (depth (mk_cat (r' :: r'' :: l))) end)
      with (depth (mk_cat (r' :: r'' :: l))) by reflexivity.
    rewrite IH. cbn [map together list_max fold_right]. lia.
Qed.
Lemma depth_alt l : Forall branch l -> depth (mk_alt l) = together (map depth l).
Proof.
  intros H. induction H as [|r l Hr Hl IH]; [reflexivity|]. destruct l as [|r' l]; [reflexivity|].
  change (mk_alt (r :: r' :: l)) with (RAlt r (mk_alt (r' :: l))). cbn [depth].
  destruct l as [|r'' l].
  - cbn [mk_alt map together list_max fold_right]. inversion Hl as [|x y Hp Hq]; subst. destruct r'; try contradiction; cbn; lia.
  - replace (match mk_alt (r' :: r'' :: l) with RAlt _ _ => depth (mk_alt (r' :: r'' :: l)) | _ => S (depth (mk_alt (r' :: r'' :: l))) end)
      with (depth (mk_alt (r' :: r'' :: l))) by reflexivity.
    rewrite IH. cbn [map together list_max fold_right]. lia.
Qed.
Lemma branch_cat l : Forall part l -> branch (mk_cat l).
Proof. intros [|r l' Hr [|r' l'' Hr' Hl]]; [exact Logic.I|now destruct r|exact Logic.I]. Qed.

Scheme deep_atom_mind := Induction for deep_atom Sort Prop
with deep_repeated_mind := Induction for deep_repeated Sort Prop
with deep_parts_mind := Induction for deep_parts Sort Prop
with deep_branches_mind := Induction for deep_branches Sort Prop.
Combined Scheme deep_mind from deep_atom_mind, deep_repeated_mind, deep_parts_mind, deep_branches_mind.
Definition nadds_settled (t : str) (r : re) : Prop :=
  forall m items alts stack, ready m -> exists m', settled m' /\
    nest_run t (mkState m items alts stack) = Done (mkState m' (r :: items) alts stack).
Lemma nadds_one_settled t r : nadds_one t r -> nadds_settled t r.
Proof. intros H m items alts stack Hm. exists MNormal. split; [apply settled_normal|]. now apply H. Qed.
Lemma nest_escape c e m items alts stack r : ready m -> escape_meaning c = Done e ->
  nest_step (mkState MEsc items alts stack) c = Done (mkState MNormal (r :: items) alts stack) ->
  nest_run [c_ "\"; c] (mkState m items alts stack) = Done (mkState MNormal (r :: items) alts stack).
Proof.
  intros Hm He H. rewrite nest_run_cons, nest_step_quiet; [|now apply ready_not_esc|discriminate].
  replace (step _ (c_ "\")) with (Done (mkState MEsc items alts stack)) by now destruct Hm.
  cbn [obind]. rewrite nest_run_cons, H. reflexivity.
Qed.
Lemma deep_read :
  (forall t d, deep_atom t d -> proper t /\ exists r, nadds_settled t r /\ part r /\ depth r = d) /\
  (forall t d o, deep_repeated t d o -> proper t /\ exists r, part r /\ depth r = d /\ forall m items alts stack, ready m -> exists m', ready m' /\ (m' = MRep -> o = true) /\
     nest_run t (mkState m items alts stack) = Done (mkState m' (r :: items) alts stack)) /\
  (forall t l, deep_parts t l -> ~ starts (c_ "?") t /\ exists rs, nadds t rs /\ Forall part rs /\ map depth rs = l) /\
  (forall t k, deep_branches t k -> ~ starts (c_ "?") t /\ exists t0 l0 l, t = t0 ++ bars l /\ nadds t0 l0 /\ Forall part l0 /\
     Forall (fun x => nadds (fst x) (snd x) /\ Forall part (snd x)) l /\ k = map depth (mk_cat l0 :: cats l)).
Proof.
  apply deep_mind.
  - intros c Hc. split; [split; [easy|]; intros [u Hu]; injection Hu as -> _; apply Hc; cbn; tauto|].
    exists (RLit c). split; [|now split]. apply nadds_one_settled. intros m items alts stack Hm. apply nest_run_quiet.
    + intros d [<-|[]]. split; intros ->; apply Hc; cbn; tauto.
    + now apply ready_not_esc.
    + rewrite run_cons, step_plain; [reflexivity|exact Hm|now apply not_special].
  - intros t Ht. split; [split; [intros ->|intros [u ->]]; cbn in Ht; intuition discriminate|].
    cbn [In] in Ht. repeat destruct Ht as [<-|Ht]; [..|contradiction].
    + exists RDot. split; [|now split]. intros m items alts stack Hm. exists MNormal. split; [apply settled_normal|].
      apply nest_run_quiet; [cbn; intuition (subst; discriminate)|now apply ready_not_esc|now destruct Hm].
    + exists (RLook LStart). split; [|now split]. intros m items alts stack Hm. exists MNormal. split; [apply settled_normal|].
      apply nest_run_quiet; [cbn; intuition (subst; discriminate)|now apply ready_not_esc|now destruct Hm].
    + exists (RLook LEnd). split; [|now split]. intros m items alts stack Hm. exists MNormal. split; [apply settled_normal|].
      apply nest_run_quiet; [cbn; intuition (subst; discriminate)|now apply ready_not_esc|now destruct Hm].
    + exists (RLook LStart). split; [|now split]. intros m items alts stack Hm. exists MNormal. split; [apply settled_normal|].
      now apply (nest_escape (c_ "A") (EscLook LStart)).
    + exists (RLook LEnd). split; [|now split]. intros m items alts stack Hm. exists MNormal. split; [apply settled_normal|].
      now apply (nest_escape (c_ "z") (EscLook LEnd)).
    + exists (RLook LWord). split; [|now split]. intros m items alts stack Hm. exists MWord. split; [apply settled_word|].
      change (s_ "\b") with [c_ "\"; c_ "b"]. rewrite (nest_run_cons (c_ "\")), nest_step_quiet; [now destruct Hm|now apply ready_not_esc|discriminate].
    + exists (RLook LNotWord). split; [|now split]. intros m items alts stack Hm. exists MNormal. split; [apply settled_normal|].
      now apply (nest_escape (c_ "B") (EscLook LNotWord)).
  - intros c d Hc. split; [split; [easy|]; intros [u Hu]; discriminate Hu|].
    exists (RLit d). split; [|now split]. apply nadds_one_settled. intros m items alts stack Hm.
    rewrite nest_run_cons, nest_step_quiet; [|now apply ready_not_esc|discriminate].
    replace (step _ (c_ "\")) with (Done (mkState MEsc items alts stack)) by now destruct Hm.
    cbn [obind]. change (mkState MEsc items alts stack) with (set_mode MEsc (mkState MNormal items alts stack)).
    rewrite <- (app_nil_r c), (nrun_escape c d) by exact Hc. reflexivity.
  - intros c i Hc. split; [split; [easy|]; intros [u Hu]; discriminate Hu|].
    exists RDot. split; [|now split]. apply nadds_one_settled. destruct (perl_item _ _ Hc) as (n & p & ->). apply escape_perl in Hc.
    intros m items alts stack Hm. apply (nest_escape c (EscPerl n p)); [exact Hm|exact Hc|]. unfold nest_step. cbn [step st_mode]. rewrite Hc. reflexivity.
  - intros t n i Hk. split; [now apply (class_proper t (mkClass n [i]))|]. exists (RClass (mkClass n [i])).
    split; [|now split]. now apply nadds_one_settled, nadds_one_class.
  - intros t k Hk Hn. split; [now apply (class_proper t k)|]. exists (RClass k).
    split; [now apply nadds_one_settled, nadds_one_class|]. split; [exact Logic.I|]. cbn [depth]. destruct (cl_items k) as [|i [|j l]]; [reflexivity|now destruct Hn|reflexivity].
  - intros q k t l Hq Ht [Hs (t0 & l0 & ls & -> & H1 & P1 & H2 & ->)]. split; [now apply proper_app, (opens_proper q k)|].
    exists (RCap (match k with Some n => n | None => None end) (mk_alt (mk_cat l0 :: cats ls))).
    split; [|split; [exact Logic.I|]].
    + apply nadds_one_settled, nadds_one_opens; [exact Hq| |exact Hs]. apply nreads_branches; [exact H1|]. eapply Forall_impl; [|exact H2]. cbn. tauto.
    + cbn [depth]. f_equal. apply depth_alt. constructor; [now apply branch_cat|]. unfold cats. apply Forall_map. eapply Forall_impl; [|exact H2]. cbn. intros x [_ Hx]. now apply branch_cat.
  - intros t d Ht [Hp (r & H & Hr & Hd)]. split; [exact Hp|]. exists r. split; [exact Hr|]. split; [exact Hd|]. intros m items alts stack Hm.
    destruct (H m items alts stack Hm) as (m' & [Hm' Hn] & E). exists m'. split; [exact Hm'|]. split; [intros; contradiction|exact E].
  - intros t d o op min max Ht [Hp (r & Hr & Hd & IH)] Hop Ho. split; [now apply proper_app|]. exists (RRep min max true r).
    split; [exact Logic.I|]. split; [cbn; now f_equal|]. intros m items alts stack Hm.
    rewrite nest_run_app. destruct (IH m items alts stack Hm) as (m' & Hm' & Hq & ->). cbn [obind]. exists MRep.
    split; [constructor|]. split; [reflexivity|]. apply nrun_operator; [exact Hop|exact Hm'|auto].
  - intros t d o op min max Ht [Hp (r & Hr & Hd & IH)] Hop Ho. split; [now apply proper_app|]. exists (RRep min max false r).
    split; [exact Logic.I|]. split; [cbn; now f_equal|]. intros m items alts stack Hm.
    rewrite nest_run_app. destruct (IH m items alts stack Hm) as (m' & Hm' & Hq & ->). cbn [obind]. exists MNormal.
    split; [constructor|]. split; [discriminate|]. rewrite nest_run_app, (nrun_operator _ _ _ Hop); [|exact Hm'|auto]. cbn [obind].
    apply nest_run_quiet; [cbn; intuition (subst; discriminate)|discriminate|reflexivity].
  - split; [intros [u Hu]; discriminate Hu|]. exists []. split; [apply nadds_nil|]. now split.
  - intros t d o u l Ht [Hp (r & Hr & Hd & IH)] Hu [Hs (rs & Hl & Hrs & <-)]. split; [now apply proper_app|]. exists (r :: rs).
    split; [|split; [now constructor|cbn; now f_equal]].
    apply (nadds_app t u [r] rs); [|exact Hl].
    intros m items alts stack Hm. destruct (IH m items alts stack Hm) as (m' & Hm' & _ & E). now exists m'.
  - intros t l Ht [Hs (rs & Hl & Hrs & <-)]. split; [exact Hs|]. exists t, rs, []. cbn [bars flat_map cats map].
    rewrite app_nil_r. rewrite depth_cat by exact Hrs. repeat split; [exact Hl|exact Hrs|constructor].
  - intros t l u k Ht [Hs (rs & Hl & Hrs & <-)] Hu [Hs' (t0 & l0 & ls & -> & H0 & P0 & Hk & ->)]. split.
    + intros [v Hv]. destruct t as [|c t]; [discriminate Hv|]. injection Hv as -> _. apply Hs. now exists t.
    + exists t, rs, ((t0, l0) :: ls). split; [|split; [exact Hl|split; [exact Hrs|split; [now constructor|]]]].
      * cbn [bars flat_map fst]. now rewrite <- app_assoc.
      * rewrite <- depth_cat by exact Hrs. reflexivity.
Qed.
Lemma nested_nest t d : nests t d -> nest t = Some d.
Proof.
  intros (k & H & ->). apply deep_read in H as [_ (t0 & l0 & l & -> & H0 & P0 & Hl & ->)].
  rewrite (nreads_nest _ (mk_alt (mk_cat l0 :: cats l))).
  - f_equal. apply depth_alt. constructor; [now apply branch_cat|]. unfold cats. apply Forall_map. eapply Forall_impl; [|exact Hl]. cbn. intros x [_ Hx]. now apply branch_cat.
  - apply nreads_branches; [exact H0|]. eapply Forall_impl; [|exact Hl]. cbn. tauto.
Qed.
(** Each derivation has its depths. *)
Lemma syntax_deep :
  (forall t r, atom t r -> exists d, deep_atom t d) /\
  (forall t r o, repeated t r o -> exists d, deep_repeated t d o) /\
  (forall t r, sequence t r -> exists l, deep_parts t l) /\
  (forall t r, alternatives t r -> exists l, deep_branches t l).
Proof.
  apply syntax_mind; try (exists 0%nat; apply da_sign; cbn; tauto).
  - intros c Hc. exists 0%nat. now constructor.
  - intros c d Hc. exists 0%nat. now apply (da_escaped c d).
  - intros c i Hc. exists 0%nat. now apply (da_perl c i).
  - intros t [n l] Hk. destruct l as [|i [|j l]]; [exists 2%nat; now apply da_class with (1 := Hk)|exists 1%nat; now apply da_class_one with (1 := Hk)|exists 2%nat; now apply da_class with (1 := Hk)].
  - intros q k t r Hq Ht [l Hl]. exists (S (together l)). now apply da_group with (1 := Hq).
  - intros t r Ht [d Hd]. exists d. now constructor.
  - intros t r o op min max Ht [d Hd] Hop Ho. exists (S d). now apply dr_greedy with (1 := Hd) (2 := Hop).
  - intros t r o op min max Ht [d Hd] Hop Ho. exists (S d). now apply dr_lazy with (1 := Hd) (2 := Hop).
  - exists []. constructor.
  - intros t r o Ht [d Hd]. exists [d]. rewrite <- (app_nil_r t). apply dp_more with (1 := Hd). constructor.
  - intros t r o u r' Ht [d Hd] Hu [l Hl] Hn. exists (d :: l). now apply dp_more with (1 := Hd).
  - intros t r Ht [l Hl]. exists [together l]. now constructor.
  - intros t r u r' Ht [l Hl] Hu [k Hk]. exists (together l :: k). now constructor.
Qed.
Lemma nest_parse t d : nest t = Some d -> exists r, parse_syntax t = Done r.
Proof.
  unfold nest, parse_syntax. intros H. assert (Hi : like init init) by (split; [reflexivity|reflexivity|discriminate|constructor]).
  pose proof (like_run t init init Hi) as L.
  destruct (nest_run t init) as [n| |], (run t init) as [s| |]; try discriminate H; try contradiction L. cbn [obind] in *.
  destruct L as [L1 L2 L3 L4]. unfold finish in *. rewrite L1. destruct (st_mode n); try discriminate H;
    destruct (st_stack n); try discriminate H; inversion L4; eauto.
Qed.
Lemma nest_nested t d : nest t = Some d <-> nests t d.
Proof.
  split; [|apply nested_nest]. intros H. destruct (nest_parse _ _ H) as [r Hr]. apply parse_iff in Hr.
  apply syntax_deep in Hr as [l Hl]. assert (N : nests t (together l)) by now exists l.
  apply nested_nest in N. rewrite N in H. injection H as <-. now exists l.
Qed.
Lemma nested_regex t r : regex_text t r -> exists d, nests t d.
Proof. intros [H _]. apply syntax_deep in H as [l Hl]. now exists (together l), l. Qed.
Lemma nested_unique t d d' : nests t d -> nests t d' -> d = d'.
Proof. intros H%nest_nested H'%nest_nested. congruence. Qed.
(** [Regex::new] under a limit, all in terms of the grammar. *)
Lemma limited_iff limit t r : limited_new limit t = Done r <-> regex_text t r /\ exists d, nests t d /\ (d <= limit)%nat.
Proof.
  rewrite limited_new_spec, regex_new_iff. split; intros [H (d & Hd & Hl)]; (split; [exact H|]); exists d; (split; [now apply nest_nested|exact Hl]).
Qed.
