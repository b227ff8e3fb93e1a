(** Proof layer, continued: single expressions and whole expressions. *)
From Verif Require Export CharLevel2.

Definition c_whitespace (p s : str) : cres text_at :=
  let '(w, r) := span_while is_whitespace s in
  match w with [] => CErr (Other (p, s) KTakeWhile1) | _ => COk (p ++ w) r (p, w) end.

Definition c_single (p s : str) (ix : N) : cres (single_expression text_at) :=
  match c_alternation p s with
  | COk q r a => COk q r (ExAlternation a)
  | CFail e => CFail e
  | CErr _ =>
  match c_optional p s with
  | COk q r a => COk q r (ExOptional a)
  | CFail e => CFail e
  | CErr _ =>
  match c_parameter p s ix with
  | COk q r a => COk q r (ExParameter a)
  | CFail e => CFail e
  | CErr _ =>
  match c_text p s with
  | COk q r a => COk q r (ExText a)
  | CFail e => CFail e
  | CErr _ =>
  match c_whitespace p s with
  | COk q r a => COk q r (ExWhitespaces a)
  | CFail e => CFail e
  | CErr _ => CErr (Other (p, s) KAlt)
  end end end end end.

Definition is_parameter {I} (x : single_expression I) : bool :=
  match x with ExParameter _ => true | _ => false end.
Definition bump {I} (c : cres (single_expression I)) (ix : N) : N :=
  match c with COk _ _ x => if is_parameter x then ix + 1 else ix | _ => ix end.

Lemma parse_single_at o l p s ix :
  ix < usize_max ->
  parse_single_expression (at_ o l p s) ix
  = (lift o l (map_single (span_at o l)) (c_single p s ix), bump (c_single p s ix) ix).
Proof.
  intros Hix. unfold parse_single_expression, c_single, alt, pure.
  unfold map_parser at 1. rewrite parse_alternation_at.
  destruct (c_alternation p s) as [q r a|e|e]; cbn [lift]; [reflexivity| |reflexivity].
  cbn [alt_from]. unfold map_parser at 1. rewrite parse_optional_at.
  destruct (c_optional p s) as [q r a|e'|e']; cbn [lift]; [reflexivity| |reflexivity].
  rewrite parse_parameter_at by assumption.
  destruct (c_parameter p s ix) as [q r a|e''|e'']; cbn [lift]; [reflexivity| |reflexivity].
  change (next_ix (CErr e'') ix) with ix.
  unfold map_parser at 1. rewrite text_at_ok.
  destruct (c_text p s) as [q r a|e3|e3]; cbn [lift]; [reflexivity| |reflexivity].
  unfold map_parser at 1. rewrite take_while1_at. unfold c_whitespace.
  destruct (span_while is_whitespace s) as [[|c w] r]; reflexivity.
Qed.

Lemma c_whitespace_ok_iff p s q r x :
  c_whitespace p s = COk q r x <->
  exists w, wf_single (ExWhitespaces w) /\ s = w ++ r /\
            match r with c :: _ => c <> c_ " " | [] => True end /\ q = p ++ w /\ x = (p, w).
Proof.
  unfold c_whitespace. split.
  - destruct (span_while is_whitespace s) as [w r'] eqn:E.
    pose proof (span_while_app _ _ _ _ E). pose proof (span_while_all _ _ _ _ E) as Ha.
    pose proof (span_while_stops _ _ _ _ E) as Hst.
    destruct w as [|c w]; [easy|]. injection 1 as <- <- <-. exists (c :: w).
    split; [|repeat split; auto].
    + split; [easy|]. apply Forall_forall. intros d Hd.
      rewrite forallb_forall in Ha. apply Ha in Hd. now apply N.eqb_eq in Hd.
    + destruct r' as [|d r']; [easy|]. cbn in Hst. now apply N.eqb_neq in Hst.
  - intros (w & [Hn Hw] & -> & Hr & -> & ->). rewrite span_while_intro.
    + now destruct w.
    + apply forallb_forall. intros d Hd. rewrite Forall_forall in Hw. apply Hw in Hd as ->.
      reflexivity.
    + destruct r as [|c r]; [easy|]. cbn. now apply N.eqb_neq.
Qed.
Lemma c_whitespace_err_iff p s :
  (exists e, c_whitespace p s = CErr e) <-> match s with c :: _ => c <> c_ " " | [] => True end.
Proof.
  unfold c_whitespace. destruct s as [|c s]; [split; cbn; eauto|].
  cbn [span_while]. unfold is_whitespace at 1. destruct (N.eqb_spec c (c_ " ")) as [->|].
  - destruct (span_while is_whitespace s). split; [intros [e He]; easy|easy].
  - split; eauto.
Qed.
Lemma c_whitespace_not_fail p s e : c_whitespace p s <> CFail e.
Proof. unfold c_whitespace. destruct (span_while is_whitespace s) as [[|] r]; easy. Qed.

(** The end of the branches of an alternation. *)
Definition word_end (r : str) : Prop :=
  match r with [] => True | c :: _ => In c (s_ " {") end.
Lemma word_end_branch_end r : word_end r -> branch_end r.
Proof. destruct r; cbn; tauto. Qed.
Lemma word_end_iff r : word_end r <-> (list_end r /\ starts_slash r = false).
Proof.
  unfold list_end, branch_end, word_end, starts_slash. destruct r as [|c r]; [easy|].
  cbn [In s_]. destruct (N.eqb_spec c (c_ "/")) as [->|Hc].
  - split; [|easy]. intros [H|[H|[]]]; easy.
  - intuition congruence.
Qed.

Lemma contains_only_optional_place p a :
  contains_only_optional (place_alternation p a) = false <-> Forall (Exists is_text) a.
Proof.
  assert (Hb : forall b p, forallb is_alt_optional (place_branch p b) = false <-> Exists is_text b).
  { induction b as [|x b IH]; intros q; cbn; [split; [easy|intros H; inversion H]|].
    rewrite andb_false_iff, Exists_cons, IH. destruct x; cbn; intuition easy. }
  revert p. unfold contains_only_optional. induction a as [|b a IH]; intros p; cbn.
  - split; constructor.
  - rewrite orb_false_iff, Hb, IH. split.
    + intros []; now constructor.
    + intros H; inversion H; auto.
Qed.

Lemma wf_branch_iff b : wf_branch b <-> branch_ok b /\ Exists is_text b.
Proof.
  unfold wf_branch, branch_ok, items_ok. rewrite linked_iff. unfold not_texts. split.
  - intros (H1 & H2 & H3). repeat split; auto. intros ->. inversion H2.
  - intros ((H1 & H2 & H3) & H4). auto.
Qed.
Lemma wf_alternation_iff a :
  wf_single (ExAlternation a) <->
  (2 <= List.length a)%nat /\ Forall branch_ok a /\ Forall (Exists is_text) a.
Proof.
  cbn [wf_single]. split.
  - intros [H1 H2]. split; [assumption|].
    split; (eapply Forall_impl; [|exact H2]); intros b Hb; now apply wf_branch_iff in Hb.
  - intros (H1 & H2 & H3). split; [assumption|]. apply Forall_forall. intros b Hb.
    apply wf_branch_iff. rewrite Forall_forall in H2, H3. auto.
Qed.

Lemma c_alternation_ok_iff p s q r x :
  c_alternation p s = COk q r x <->
  exists a, wf_single (ExAlternation a) /\ s = src_single (ExAlternation a) ++ r /\ word_end r /\
            q = p ++ src_single (ExAlternation a) /\ x = place_alternation p a.
Proof.
  split.
  - unfold c_alternation. destruct (c_branch p s) as [q1 r1 b|e|e] eqn:E;
      [|now destruct (starts_slash s)|easy].
    apply c_branch_ok_iff in E as (b' & Hn & Hb & -> & Hr & -> & ->).
    destruct (c_seps (S (List.length r1)) (p ++ src_branch b') r1) as [x' [q2 r2 u|e|e]] eqn:Ec;
      [|easy..].
    apply c_seps_ok_iff in Ec as (a & Ha & -> & Hend & -> & ->); [|lia|assumption].
    destruct (starts_slash r2) eqn:Hsl; [easy|].
    destruct a as [|b1 a]; [easy|]. cbn [place_tail].
    destruct (contains_only_optional _) eqn:Ho; [easy|].
    change (place_branch ((p ++ src_branch b') ++ s_ "/") b1 ::
            place_tail ((p ++ src_branch b') ++ s_ "/" ++ src_branch b1) a)
      with (place_tail (p ++ src_branch b') (b1 :: a)) in *.
    rewrite <- place_alternation_tail in *.
    apply contains_only_optional_place in Ho.
    injection 1 as <- <- <-. exists (b' :: b1 :: a). cbn [src_single].
    rewrite join_tail. split; [|split; [|split; [|split]]].
    + apply wf_alternation_iff. split; [cbn; lia|]. split; [|assumption].
      constructor; [split|]; assumption.
    + now rewrite <- app_assoc.
    + apply word_end_iff. auto.
    + now rewrite <- app_assoc.
    + reflexivity.
  - intros (a & Hw & -> & Hr & -> & ->).
    apply wf_alternation_iff in Hw as (Hlen & Hok & Ht).
    destruct a as [|b [|b1 a]]; [cbn in Hlen; lia..|].
    cbn [src_single]. rewrite join_tail. unfold c_alternation.
    inversion Hok as [|? ? [Hn Hb] Hok']; subst.
    pose proof (proj1 (word_end_iff r) Hr) as [Hle Hsl].
    rewrite (proj2 (c_branch_ok_iff p _ (p ++ src_branch b) (tail_of (b1 :: a) ++ r)
               (place_branch p b))).
    2:{ exists b. rewrite <- app_assoc. repeat split; auto; try apply Hb.
        apply tail_of_branch_end. apply Hle. }
    rewrite (proj2 (c_seps_ok_iff (S (List.length (tail_of (b1 :: a) ++ r))) (p ++ src_branch b)
               (tail_of (b1 :: a) ++ r) (place_tail (p ++ src_branch b) (b1 :: a))
               (p ++ src_branch b ++ tail_of (b1 :: a)) r tt ltac:(lia)
               ltac:(apply tail_of_branch_end, Hle))).
    2:{ exists (b1 :: a). rewrite <- app_assoc. repeat split; auto; apply Hle. }
    rewrite Hsl. rewrite <- place_alternation_tail.
    apply (contains_only_optional_place p) in Ht. cbn [place_tail].
    rewrite Ht. reflexivity.
Qed.

(** No alternation starts at [s]: everything up to the end of the word is one branch. *)
Definition one_branch (s : str) : Prop :=
  exists b r, items_ok b /\ s = src_branch b ++ r /\ word_end r.
Lemma c_alternation_err_iff p s : (exists e, c_alternation p s = CErr e) <-> one_branch s.
Proof.
  split.
  - intros [e0 H]. unfold c_alternation in H.
    destruct (c_branch p s) as [q1 r1 b|e|e] eqn:E.
    + apply c_branch_ok_iff in E as (b' & Hn & Hb & -> & Hr & -> & ->).
      destruct (c_seps (S (List.length r1)) (p ++ src_branch b') r1) as [x' [q2 r2 u|e|e]] eqn:Ec;
        [| |easy].
      * apply c_seps_ok_iff in Ec as (a & Ha & -> & Hend & -> & ->); [|lia|assumption].
        destruct (starts_slash r2) eqn:Hsl; [easy|].
        destruct a as [|b1 a].
        -- exists b', r2. split; [assumption|]. split; [reflexivity|]. now apply word_end_iff.
        -- cbn [place_tail] in H.
           now destruct (contains_only_optional _).
      * now apply c_seps_not_err in Ec; [|lia].
    + pose proof (proj1 (c_branch_err_iff p s) (ex_intro _ _ E)) as Hb.
      destruct (starts_slash s) eqn:Hs; [easy|]. exists [], s.
      split; [split; [constructor|exact I]|]. split; [reflexivity|]. apply word_end_iff.
      split; [|assumption]. split; [assumption|]. destruct s as [|c s]; [easy|].
      cbn in Hs. intros ->. easy.
    + easy.
  - intros (b & r & Hb & -> & Hr). unfold c_alternation.
    pose proof (proj1 (word_end_iff r) Hr) as [Hle Hsl]. destruct b as [|x b].
    + cbn [src_branch map List.concat app].
      destruct (proj2 (c_branch_err_iff p r)) as [e ->]; [apply Hle|]. rewrite Hsl. eauto.
    + rewrite (proj2 (c_branch_ok_iff p _ (p ++ src_branch (x :: b)) r (place_branch p (x :: b)))).
      2:{ exists (x :: b). split; [easy|]. split; [exact Hb|]. split; [reflexivity|].
          split; [apply Hle|auto]. }
      rewrite (proj2 (c_seps_ok_iff (S (List.length r)) (p ++ src_branch (x :: b)) r [] (p ++ src_branch (x :: b)) r tt ltac:(lia)
                        (proj1 Hle))).
      2:{ exists []. rewrite (app_tail_nil (p ++ src_branch (x :: b))).
          repeat split; auto; apply Hle. }
      rewrite Hsl. eauto.
Qed.

Lemma c_parameter_ok_iff p s ix q r a :
  c_parameter p s ix = COk q r a <->
  exists t, content name_special t /\ s = s_ "{" ++ t ++ s_ "}" ++ r /\
            q = p ++ s_ "{" ++ t ++ s_ "}" /\ a = mkParameter (p ++ s_ "{", t) ix.
Proof.
  split.
  - intros H. pose proof (par_ok_spec p s ix) as Hp. destruct (par_ok s) as [[t r']|] eqn:E;
      [|now rewrite H in Hp].
    apply par_ok_iff in E as [-> Ht]. destruct Hp as [_ Hp]. rewrite H in Hp.
    injection Hp as -> -> ->. exists t. repeat split; auto.
  - intros (t & Ht & -> & -> & ->).
    pose proof (par_ok_spec p (s_ "{" ++ t ++ s_ "}" ++ r) ix) as Hp.
    rewrite (proj2 (par_ok_iff _ t r)) in Hp by auto. now destruct Hp as [_ ->].
Qed.
Lemma c_parameter_err_iff p s ix :
  (exists e, c_parameter p s ix = CErr e) <-> match s with c :: _ => c <> c_ "{" | [] => True end.
Proof.
  unfold c_parameter. destruct s as [|c s]; [split; eauto|].
  destruct (N.eqb_spec c (c_ "{")) as [->|]; [|split; eauto].
  split; [|easy]. intros [e H]. exfalso.
  destruct (c_esc is_name (p ++ [c_ "{"]) s) as [q [|d r] t|e'|e'] eqn:E; try easy.
  - now destruct (d =? c_ "}").
  - now apply c_esc_not_err in E.
Qed.

(** What may follow a node. *)
Definition rest_ok (x : single_expression str) (r : str) : Prop :=
  match x with
  | ExAlternation _ => word_end r
  | ExOptional _ => one_branch r
  | ExParameter _ => True
  | ExText _ => ends text_special r /\ one_branch r
  | ExWhitespaces _ => match r with c :: _ => c <> c_ " " | [] => True end
  end.
Definition id_is (x : single_expression str) (ix : N) : Prop :=
  match x with ExParameter p => par_id p = ix | _ => True end.

Lemma one_branch_optional t r : wf_optional (mkOptional t) ->
  one_branch (s_ "(" ++ t ++ s_ ")" ++ r) <-> one_branch r.
Proof.
  intros Ht. split.
  - intros (b & r' & [Hb1 Hb2] & Hs & Hr').
    (* the parse of the branch is unique *)
    pose proof (proj2 (c_many_ok_iff (S (List.length (src_branch b ++ r'))) []
       (src_branch b ++ r') (place_branch [] b) (src_branch b) r' tt ltac:(lia))) as H.
    rewrite <- Hs in H. cbn [c_many] in H.
    rewrite (proj2 (c_alternative_ok_iff [] _ ([] ++ s_ "(" ++ t ++ s_ ")") r
               (place_alternative [] (AltOptional (mkOptional t))))) in H.
    2:{ exists (AltOptional (mkOptional t)). cbn [src_alternative opt_input].
        rewrite <- !app_assoc. split; [exact Ht|]. split; [reflexivity|]. split; [easy|auto]. }
    destruct (c_many _ c_alternative _ r) as [x' c] eqn:Ec.
    assert (H0 : (place_alternative [] (AltOptional (mkOptional t)) :: x', c)
                 = (place_branch [] b, COk (src_branch b) r' tt)).
    { apply H. exists b. repeat split; auto. now apply word_end_branch_end. }
    injection H0 as _ ->.
    apply c_many_ok_iff in Ec as (b' & Hb' & -> & _ & _ & _).
    { exists b', r'. auto. }
    cbn. rewrite !app_length. cbn. lia.
  - intros (b & r' & [Hb1 Hb2] & -> & Hr').
    exists (AltOptional (mkOptional t) :: b), r'. rewrite src_branch_cons.
    cbn [src_alternative opt_input]. rewrite <- !app_assoc. split; [|auto].
    split; [now constructor|]. cbn. split; [|assumption]. destruct b; [easy|]. now intros [].
Qed.
Lemma one_branch_text t r : wf_text t -> ends text_special r ->
  one_branch (t ++ r) <-> one_branch r.
Proof.
  intros Ht Hend. split.
  - intros (b & r' & [Hb1 Hb2] & Hs & Hr').
    pose proof (proj2 (c_many_ok_iff (S (List.length (src_branch b ++ r'))) []
       (src_branch b ++ r') (place_branch [] b) (src_branch b) r' tt ltac:(lia))) as H.
    rewrite <- Hs in H. cbn [c_many] in H.
    rewrite (proj2 (c_alternative_ok_iff [] _ ([] ++ t) r (place_alternative [] (AltText t)))) in H.
    2:{ exists (AltText t). split; [exact Ht|]. split; [reflexivity|]. split; [easy|auto]. }
    destruct (c_many _ c_alternative _ r) as [x' c] eqn:Ec.
    assert (H0 : (place_alternative [] (AltText t) :: x', c)
                 = (place_branch [] b, COk (src_branch b) r' tt)).
    { apply H. exists b. repeat split; auto. now apply word_end_branch_end. }
    injection H0 as _ ->.
    apply c_many_ok_iff in Ec as (b' & Hb' & -> & _ & _ & _).
    { exists b', r'. auto. }
    destruct Ht as [Hn _]. destruct t; [easy|]. cbn. rewrite app_length. lia.
  - intros (b & r' & [Hb1 Hb2] & -> & Hr').
    exists (AltText t :: b), r'. rewrite src_branch_cons.
    cbn [src_alternative opt_input]. rewrite <- !app_assoc. split; [|auto].
    split; [now constructor|]. cbn. split; [|assumption]. destruct b as [|y b]; [easy|].
    intros [_ H]. inversion Hb1; subst. rewrite src_branch_cons, <- app_assoc in Hend.
    now apply ends_app_alternative in Hend.
Qed.

Lemma text_head t r : wf_text t -> exists c t', t ++ r = c :: t' /\ ~ In c (s_ " ({/").
Proof.
  intros [Hn Ht]. destruct Ht as [|c t Hc Ht|c t Hc Ht]; [easy|..]; eexists _, _;
    (split; [reflexivity|]).
  - intros H. apply Hc. cbn in *. tauto.
  - cbn. intuition easy.
Qed.
Lemma word_end_one_branch r : word_end r -> one_branch r.
Proof. intros H. exists [], r. split; [split; [constructor|exact I]|auto]. Qed.

Lemma c_single_ok_iff p s ix q r y :
  c_single p s ix = COk q r y <->
  exists x, wf_single x /\ s = src_single x ++ r /\ rest_ok x r /\ id_is x ix /\
            q = p ++ src_single x /\ y = place_single p x.
Proof.
  split.
  - unfold c_single. destruct (c_alternation p s) as [q' r' a|e|e] eqn:Ea; [| |easy].
    { injection 1 as <- <- <-. apply c_alternation_ok_iff in Ea as (a' & Hw & -> & Hr & -> & ->).
      exists (ExAlternation a'). repeat split; auto; apply Hw. }
    pose proof (proj1 (c_alternation_err_iff p s) (ex_intro _ _ Ea)) as Hone. clear e Ea.
    destruct (c_optional p s) as [q' r' a|e|e] eqn:Eo; [| |easy].
    { injection 1 as <- <- <-. apply c_optional_ok_iff in Eo as (t & Hw & -> & -> & ->).
      exists (ExOptional (mkOptional t)). cbn [src_single opt_input]. split; [exact Hw|].
      rewrite <- !app_assoc. repeat split. cbn [rest_ok]. now apply one_branch_optional in Hone. }
    destruct (c_parameter p s ix) as [q' r' a|e'|e'] eqn:Ep; [| |easy].
    { injection 1 as <- <- <-. apply c_parameter_ok_iff in Ep as (t & Hw & -> & -> & ->).
      exists (ExParameter (mkParameter t ix)). cbn [src_single par_input]. split; [exact Hw|].
      rewrite <- !app_assoc. repeat split. }
    destruct (c_text p s) as [q' r' a|e''|e''] eqn:Et; [| |easy].
    { injection 1 as <- <- <-. apply c_text_ok_iff in Et as (t & Hw & -> & Hr & -> & ->).
      exists (ExText t). split; [exact Hw|]. repeat split; auto. now apply one_branch_text in Hone. }
    destruct (c_whitespace p s) as [q' r' a|e3|e3] eqn:Ew; [|easy..].
    injection 1 as <- <- <-. apply c_whitespace_ok_iff in Ew as (t & Hw & -> & Hr & -> & ->).
    exists (ExWhitespaces t). split; [exact Hw|]. repeat split; auto.
  - intros (x & Hw & -> & Hr & Hid & -> & ->). unfold c_single. destruct x as [a|[t]|[t i]|t|w].
    + rewrite (proj2 (c_alternation_ok_iff p _ (p ++ src_single (ExAlternation a)) r
                 (place_alternation p a))); [reflexivity|]. exists a. auto.
    + cbn [rest_ok] in Hr. cbn [src_single opt_input] in *.
      destruct (proj2 (c_alternation_err_iff p ((s_ "(" ++ t ++ s_ ")") ++ r))) as [e ->].
      { rewrite <- !app_assoc. now apply one_branch_optional. }
      rewrite (proj2 (c_optional_ok_iff p _ (p ++ s_ "(" ++ t ++ s_ ")") r
                 (mkOptional (p ++ s_ "(", t)))); [reflexivity|].
      exists t. rewrite <- !app_assoc. auto.
    + cbn [rest_ok id_is par_id] in *. subst i. cbn [src_single par_input] in *.
      destruct (proj2 (c_alternation_err_iff p ((s_ "{" ++ t ++ s_ "}") ++ r))) as [e ->].
      { apply word_end_one_branch. cbn. tauto. }
      destruct (proj2 (c_optional_err_iff p ((s_ "{" ++ t ++ s_ "}") ++ r))) as [e' ->]; [easy|].
      rewrite (proj2 (c_parameter_ok_iff p _ ix (p ++ s_ "{" ++ t ++ s_ "}") r
                 (mkParameter (p ++ s_ "{", t) ix))); [reflexivity|].
      exists t. rewrite <- !app_assoc. auto.
    + cbn [rest_ok] in Hr. destruct Hr as [Hr1 Hr2]. cbn [src_single].
      destruct (proj2 (c_alternation_err_iff p (t ++ r))) as [e ->].
      { now apply one_branch_text. }
      destruct (text_head t r Hw) as (c & t' & Hc & Hn).
      destruct (proj2 (c_optional_err_iff p (t ++ r))) as [e' ->].
      { rewrite Hc. intros ->. apply Hn. cbn. tauto. }
      destruct (proj2 (c_parameter_err_iff p (t ++ r) ix)) as [e'' ->].
      { rewrite Hc. intros ->. apply Hn. cbn. tauto. }
      rewrite (proj2 (c_text_ok_iff p _ (p ++ t) r (p, t))); [reflexivity|]. exists t. auto.
    + cbn [rest_ok] in Hr. cbn [src_single].
      assert (Hc : exists w', w = c_ " " :: w').
      { destruct Hw as [Hn Hw]. destruct w as [|c w]; [easy|]. inversion Hw; subst. eauto. }
      destruct Hc as [w' ->].
      destruct (proj2 (c_alternation_err_iff p ((c_ " " :: w') ++ r))) as [e ->].
      { apply word_end_one_branch. cbn. tauto. }
      destruct (proj2 (c_optional_err_iff p ((c_ " " :: w') ++ r))) as [e' ->]; [easy|].
      destruct (proj2 (c_parameter_err_iff p ((c_ " " :: w') ++ r) ix)) as [e'' ->]; [easy|].
      destruct (proj2 (c_text_err_iff p ((c_ " " :: w') ++ r))) as [e3 ->].
      { cbn. split; [tauto|easy]. }
      rewrite (proj2 (c_whitespace_ok_iff p _ (p ++ (c_ " " :: w')) r (p, c_ " " :: w')));
        [reflexivity|]. exists (c_ " " :: w'). auto.
Qed.

Lemma wf_single_not_nil x : wf_single x -> src_single x <> [].
Proof.
  destruct x as [a|[t]|[t i]|t|w].
  - cbn [src_single]. intros Hw. apply wf_alternation_iff in Hw as (Hl & Hb & _).
    destruct a as [|b [|b1 a]]; [cbn in Hl; lia..|]. rewrite join_tail, tail_cons.
    now destruct (src_branch b).
  - easy.
  - easy.
  - now intros [H _].
  - now intros [H _].
Qed.
Lemma c_single_advances ix : advances (fun p s => c_single p s ix).
Proof.
  intros p s q r y H. apply c_single_ok_iff in H as (x & Hw & -> & _ & _ & -> & _).
  exists (src_single x). split; [now apply wf_single_not_nil|auto].
Qed.
Lemma c_single_err_iff p s ix : (exists e, c_single p s ix = CErr e) <-> s = [].
Proof.
  split.
  - intros [e H]. unfold c_single in H.
    destruct (c_alternation p s) as [|e1|] eqn:Ea; [easy| |easy].
    destruct (c_optional p s) as [|e2|] eqn:Eo; [easy| |easy].
    destruct (c_parameter p s ix) as [|e3|] eqn:Ep; [easy| |easy].
    destruct (c_text p s) as [|e4|] eqn:Et; [easy| |easy].
    destruct (c_whitespace p s) as [|e5|] eqn:Ew; [easy| |easy].
    pose proof (proj1 (c_optional_err_iff p s) (ex_intro _ _ Eo)) as H1.
    pose proof (proj1 (c_parameter_err_iff p s ix) (ex_intro _ _ Ep)) as H2.
    pose proof (proj1 (c_text_err_iff p s) (ex_intro _ _ Et)) as H3.
    pose proof (proj1 (c_whitespace_err_iff p s) (ex_intro _ _ Ew)) as H4.
    destruct s as [|c s]; [reflexivity|]. exfalso. destruct H3 as [H3 H5].
    pose proof (proj1 (c_alternation_err_iff p (c :: s)) (ex_intro _ _ Ea)) as (b & r & Hb & Hs & Hr).
    assert (Hc : c = c_ "/").
    { unfold backslash in H5. unfold text_special in H3. cbn [In s_] in H3.
      destruct H3 as [<-|[<-|[<-|[<-|[<-|[]]]]]]; easy. }
    subst c. destruct b as [|x b].
    + cbn in Hs. subst r. cbn in Hr. intuition easy.
    + destruct Hb as [Hb _]. inversion Hb; subst. rewrite src_branch_cons, <- app_assoc in Hs.
      apply (not_branch_end_alternative x (src_branch b ++ r)); [assumption|].
      rewrite <- Hs. cbn. tauto.
  - intros ->. exists (Other (p, []) KAlt). reflexivity.
Qed.

Fixpoint c_expr (fuel : nat) (p s : str) (ix : N) : expression text_at * cres unit :=
  match fuel with
  | O => ([], CErr ENeeded)
  | S fuel' =>
      match c_single p s ix with
      | CErr _ => ([], COk p s tt)
      | CFail e => ([], CFail e)
      | COk q r x =>
          let '(l, c) := c_expr fuel' q r (if is_parameter x then ix + 1 else ix) in (x :: l, c)
      end
  end.

Lemma many0_at o l : forall fuel p s acc ix, (List.length s < fuel)%nat ->
  ix + N.of_nat (List.length s) <= usize_max ->
  fst (many0_loop fuel parse_single_expression acc (at_ o l p s) ix)
  = let '(x, c) := c_expr fuel p s ix in
    lift o l (fun _ => rev acc ++ map_expression (span_at o l) x) c.
Proof.
  induction fuel as [|fuel IH]; intros p s acc ix Hf Hix; [lia|].
  cbn [many0_loop c_expr].
  assert (Hcase : s = [] \/ ix < usize_max) by (destruct s; [auto|right; cbn in Hix; lia]).
  destruct Hcase as [->|Hlt].
  { cbn. now rewrite app_nil_r. }
  rewrite parse_single_at by assumption.
  destruct (c_single p s ix) as [q r x|e|e] eqn:E; cbn [lift bump].
  - rewrite !input_len_at. destruct (advances_shorter _ _ _ _ _ _ (c_single_advances ix) E) as [Hl ->].
    rewrite IH; [|lia|destruct (is_parameter x); lia].
    destruct (c_expr fuel q r (if is_parameter x then ix + 1 else ix)) as [y c].
    destruct c; cbn; [|easy..]. now rewrite <- app_assoc.
  - cbn. now rewrite app_nil_r.
  - reflexivity.
Qed.

(** ** What expressions are accepted *)
Definition next_id {I} (x : single_expression I) (ix : N) : N :=
  if is_parameter x then ix + 1 else ix.
Fixpoint ids_from (ix : N) (e : expression str) : Prop :=
  match e with
  | [] => True
  | x :: e' => id_is x ix /\ ids_from (next_id x ix) e'
  end.
Fixpoint all_rest_ok (e : expression str) : Prop :=
  match e with
  | [] => True
  | x :: e' => rest_ok x (source e') /\ all_rest_ok e'
  end.
Lemma source_cons x e : source (x :: e) = src_single x ++ source e.
Proof. reflexivity. Qed.
Lemma next_id_place p x ix : next_id (place_single p x) ix = next_id x ix.
Proof. now destruct x. Qed.

Lemma c_expr_ok_iff : forall fuel (p s : str) ix y (q r : str) u, (List.length s < fuel)%nat ->
  c_expr fuel p s ix = (y, COk q r u) <->
  exists e, Forall wf_single e /\ all_rest_ok e /\ ids_from ix e /\ s = source e /\ r = [] /\
            q = p ++ s /\ y = place p e.
Proof.
  induction fuel as [|fuel IH]; intros p s ix y q r u Hf; [lia|]. cbn [c_expr]. split.
  - destruct (c_single p s ix) as [q' r' x|e|e] eqn:E; [| |easy].
    + destruct (advances_shorter _ _ _ _ _ _ (c_single_advances ix) E) as [Hl _].
      destruct (c_expr fuel q' r' _) as [y' c] eqn:Ec. injection 1 as <- ->.
      apply c_single_ok_iff in E as (x' & Hw & -> & Hr & Hid & -> & ->).
      fold (next_id (place_single p x') ix) in Ec. rewrite next_id_place in Ec.
      apply IH in Ec as (e & He1 & He2 & He3 & -> & -> & -> & ->); [|lia].
      exists (x' :: e). rewrite source_cons, <- !app_assoc. repeat split; auto.
    + injection 1 as <- <- <- _.
      pose proof (proj1 (c_single_err_iff p s ix) (ex_intro _ _ E)) as ->.
      exists []. rewrite app_nil_r. repeat split; auto.
  - intros (e & He1 & He2 & He3 & -> & -> & -> & ->). destruct e as [|x e].
    + cbn [source map List.concat]. destruct (proj2 (c_single_err_iff p [] ix) eq_refl) as [e ->].
      rewrite app_nil_r. now destruct u.
    + rewrite source_cons in *. inversion He1; subst. destruct He2 as [He2 He2'].
      destruct He3 as [He3 He3'].
      assert (E : c_single p (src_single x ++ source e) ix
                  = COk (p ++ src_single x) (source e) (place_single p x)).
      { apply c_single_ok_iff. exists x. repeat split; auto. }
      rewrite E. destruct (advances_shorter _ _ _ _ _ _ (c_single_advances ix) E) as [Hl _].
      fold (next_id (place_single p x) ix). rewrite next_id_place.
      rewrite (proj2 (IH (p ++ src_single x) (source e) (next_id x ix)
         (place (p ++ src_single x) e) (p ++ src_single x ++ source e) [] u ltac:(lia)));
        [reflexivity|].
      exists e. rewrite <- !app_assoc. repeat split; auto.
Qed.
Lemma c_expr_not_err : forall fuel p s ix y e, (List.length s < fuel)%nat ->
  c_expr fuel p s ix <> (y, CErr e).
Proof.
  induction fuel as [|fuel IH]; intros p s ix y e Hf; [lia|]. cbn [c_expr].
  destruct (c_single p s ix) as [q' r' x|e'|e'] eqn:E; [|easy..].
  destruct (advances_shorter _ _ _ _ _ _ (c_single_advances ix) E) as [Hl _].
  destruct (c_expr fuel q' r' _) as [y' c] eqn:Ec. intros H. injection H as <- ->.
  revert Ec. apply IH. lia.
Qed.

(** ids *)
Lemma ids_from_iff e : forall ix, ids_from ix e <-> ids e = count_from ix (List.length (ids e)).
Proof.
  induction e as [|x e IH]; intros ix; [easy|].
  cbn [ids_from]. rewrite IH. unfold ids. cbn [flat_map].
  destruct x as [a|o|p|t|w]; cbn [app id_is next_id is_parameter]; try (split; [easy|auto]).
  cbn [List.length count_from]. split.
  - intros [-> H]. f_equal. exact H.
  - intros H. injection H as H1 H2. split; [assumption|]. exact H2.
Qed.

(** Adjacency. *)
Lemma src_head_alternation a r : wf_single (ExAlternation a) ->
  exists b r', items_ok b /\ b <> [] /\ src_single (ExAlternation a) ++ r = src_branch b ++ c_ "/" :: r'.
Proof.
  intros Hw. apply wf_alternation_iff in Hw as (Hl & Hb & _).
  destruct a as [|b [|b1 a]]; [cbn in Hl; lia..|]. cbn [src_single].
  rewrite join_tail, tail_cons. inversion Hb as [|? ? [Hn Hok] _]; subst.
  exists b, (src_branch b1 ++ tail_of a ++ r). repeat split; auto; try apply Hok.
  rewrite <- !app_assoc. reflexivity.
Qed.
Lemma branch_unique b1 r1 b2 r2 : items_ok b1 -> items_ok b2 -> branch_end r1 -> branch_end r2 ->
  src_branch b1 ++ r1 = src_branch b2 ++ r2 -> r1 = r2.
Proof.
  intros H1 H2 H3 H4 H.
  pose proof (proj2 (c_many_ok_iff (S (List.length (src_branch b1 ++ r1))) [] (src_branch b1 ++ r1)
     (place_branch [] b1) (src_branch b1) r1 tt ltac:(lia))
     (ex_intro _ b1 (conj H1 (conj eq_refl (conj H3 (conj eq_refl eq_refl)))))) as E1.
  rewrite H in E1 at 2.
  assert (E2 : c_many (S (List.length (src_branch b1 ++ r1))) c_alternative [] (src_branch b2 ++ r2)
     = (place_branch [] b2, COk (src_branch b2) r2 tt)).
  { apply c_many_ok_iff; [rewrite H; lia|]. exists b2. auto. }
  congruence.
Qed.
Lemma not_one_branch_alternation a r : wf_single (ExAlternation a) ->
  ~ one_branch (src_single (ExAlternation a) ++ r).
Proof.
  intros Hw (b & r' & Hb & Hs & Hr').
  destruct (src_head_alternation a r Hw) as (b1 & r1 & Hb1 & _ & H). rewrite H in Hs.
  apply branch_unique in Hs; auto.
  - subst r'. cbn in Hr'. intuition easy.
  - cbn. tauto.
  - now apply word_end_branch_end.
Qed.

Definition starts_item (x : single_expression str) : Prop :=
  match x with ExAlternation _ | ExText _ | ExOptional _ => True | _ => False end.
Lemma starts_item_not_word_end x r : wf_single x -> starts_item x -> ~ word_end (src_single x ++ r).
Proof.
  intros Hw Hx H. apply word_end_branch_end in H. destruct x as [a|[t]|[t i]|t|w]; try easy.
  - destruct (src_head_alternation a r Hw) as (b & r' & [Hb _] & Hn & Hs). rewrite Hs in H.
    destruct b as [|y b]; [easy|]. inversion Hb; subst. rewrite src_branch_cons, <- app_assoc in H.
    now apply not_branch_end_alternative in H.
  - cbn in H. intuition easy.
  - now apply (not_branch_end_alternative (AltText t) r Hw).
Qed.
Lemma not_item_word_end x r : wf_single x -> ~ starts_item x -> word_end (src_single x ++ r).
Proof.
  destruct x as [a|[t]|[t i]|t|w]; cbn; try tauto.
  intros [Hn Hw] _. destruct w as [|c w]; [easy|]. inversion Hw; subst. cbn. tauto.
Qed.

Lemma adjacency e : Forall wf_single e -> all_rest_ok e <-> linked may_follow e.
Proof.
  intros He. split.
  - induction e as [|x e IH]; [easy|]. inversion He as [|? ? Hx He']; subst. cbn [all_rest_ok linked].
    intros [Hr Ha]. split; [|auto]. destruct e as [|y e]; [easy|].
    rewrite source_cons in Hr. inversion He' as [|? ? Hy _]; subst.
    destruct x as [a|o|p|t|w], y as [a'|o'|p'|t'|w']; cbn [may_follow]; auto; cbn [rest_ok] in Hr.
    + now apply starts_item_not_word_end in Hr.
    + now apply starts_item_not_word_end in Hr.
    + now apply starts_item_not_word_end in Hr.
    + now apply not_one_branch_alternation in Hr.
    + now apply (not_one_branch_alternation a' (source e) Hy).
    + destruct Hr as [Hr _]. exact (proj1 (ends_app_alternative (AltText t') (source e) Hy) Hr I).
    + destruct Hy as [Hn Hy]. destruct w' as [|c w']; [easy|]. inversion Hy; subst. easy.
  - assert (Hone : forall e, Forall wf_single e -> linked may_follow e ->
       match e with ExAlternation _ :: _ => False | _ => True end ->
       exists b r, items_ok b /\ source e = src_branch b ++ r /\ word_end r /\
         match b, e with
         | AltText _ :: _, ExText _ :: _ => True
         | AltText _ :: _, _ => False
         | _, _ => True
         end).
    { induction e0 as [|x e0 IH]; intros Hw Hl Hh.
      { exists [], []. repeat split; auto. }
      inversion Hw as [|? ? Hx Hw']; subst. destruct Hl as [Hl1 Hl2].
      destruct x as [a|[t]|[t i]|t|w]; [easy|..].
      - destruct (IH Hw' Hl2) as (b & r & Hb & Hs & Hr & Hm).
        { destruct e0 as [|y e0]; [easy|]. now destruct y. }
        exists (AltOptional (mkOptional t) :: b), r. rewrite source_cons, Hs, src_branch_cons.
        split; [|split; [now rewrite <- app_assoc|auto]]. destruct Hb as [Hb1 Hb2].
        split; [now constructor|]. cbn. split; [|assumption]. destruct b; [easy|]. now intros [].
      - exists [], (source (ExParameter (mkParameter t i) :: e0)).
        split; [split; [constructor|exact I]|]. repeat split.
        rewrite source_cons. now apply not_item_word_end.
      - destruct (IH Hw' Hl2) as (b & r & Hb & Hs & Hr & Hm).
        { destruct e0 as [|y e0]; [easy|]. now destruct y. }
        exists (AltText t :: b), r. rewrite source_cons, Hs, src_branch_cons.
        split; [|split; [now rewrite <- app_assoc|auto]]. destruct Hb as [Hb1 Hb2].
        split; [now constructor|]. cbn. split; [|assumption].
        destruct b as [|z b]; [easy|]. intros [_ Hz]. destruct z as [|t']; [easy|].
        destruct e0 as [|y e0]; [easy|]. now destruct y.
      - exists [], (source (ExWhitespaces w :: e0)).
        split; [split; [constructor|exact I]|]. repeat split.
        rewrite source_cons. now apply not_item_word_end. }
    induction e as [|x e IH]; [easy|]. inversion He as [|? ? Hx He']; subst. cbn [all_rest_ok linked].
    intros [Hf Hl]. split; [|auto].
    destruct x as [a|o|p|t|w]; cbn [rest_ok].
    + destruct e as [|y e]; [easy|]. rewrite source_cons. inversion He'; subst.
      apply not_item_word_end; [assumption|]. now destruct y.
    + destruct (Hone e He' Hl) as (b & r & H1 & H2 & H3 & _).
      { destruct e as [|y e]; [easy|]. now destruct y. }
      exists b, r. auto.
    + exact I.
    + destruct (Hone e He' Hl) as (b & r & H1 & H2 & H3 & H4).
      { destruct e as [|y e]; [easy|]. now destruct y. }
      split; [|exists b, r; auto]. rewrite H2. destruct b as [|z b].
      * cbn. now apply branch_end_ends, word_end_branch_end.
      * destruct H1 as [H1 _]. inversion H1; subst. rewrite src_branch_cons, <- app_assoc.
        apply ends_app_alternative; [assumption|]. destruct z as [|t']; [easy|].
        destruct e as [|y e]; [easy|]. now destruct y.
    + destruct e as [|y e]; [easy|]. rewrite source_cons. inversion He' as [|? ? Hy _]; subst.
      destruct y as [a|[t]|[t i]|t|w'].
      * destruct (src_head_alternation a (source e) Hy) as (b & r' & [Hb _] & Hn & Hs).
        rewrite Hs. destruct b as [|z b]; [easy|]. inversion Hb; subst.
        rewrite src_branch_cons, <- app_assoc.
        pose proof (not_branch_end_alternative z (src_branch b ++ c_ "/" :: r')) as H.
        destruct (src_alternative z ++ _) as [|c s]; [easy|]. intros ->. apply H; [assumption|].
        cbn. tauto.
      * easy.
      * easy.
      * destruct (text_head t (source e) Hy) as (c & t' & H & Hn). cbn [src_single]. rewrite H.
        intros ->. apply Hn. cbn. tauto.
      * easy.
Qed.

Lemma wf_iff e : wf e <-> Forall wf_single e /\ all_rest_ok e /\ ids_from 0 e.
Proof.
  unfold wf. rewrite ids_from_iff, <- linked_iff. split.
  - intros (H1 & H2 & H3). repeat split; auto. now apply adjacency.
  - intros (H1 & H2 & H3). repeat split; auto. now apply adjacency.
Qed.

Theorem parse_expression_iff o l s rest out :
  N.of_nat (List.length s) <= usize_max ->
  parse_expression (mkspan o l s) = Ok rest out <->
  exists e, wf e /\ source e = s /\ out = locate o l e /\
            rest = mkspan (o + blen s) (l + newlines s) [].
Proof.
  intros Hlen. unfold parse_expression, many0.
  replace (mkspan o l s) with (at_ o l [] s) by (unfold at_, span_at; cbn; f_equal; lia).
  rewrite frag_at, many0_at by lia.
  destruct (c_expr (S (List.length s)) [] s 0) as [x [q r u|e|e]] eqn:E; cbn [lift rev app].
  - pose proof E as E'. apply c_expr_ok_iff in E as (e & H1 & H2 & H3 & H4 & -> & Hq & ->); [|lia].
    cbn in Hq. subst q. split.
    + injection 1 as <- <-. exists e. rewrite wf_iff. auto.
    + intros (e' & Hw & Hs & -> & ->). apply wf_iff in Hw as (H1' & H2' & H3').
      assert (E2 : c_expr (S (List.length s)) [] s 0 = (place [] e', COk s [] u)).
      { apply c_expr_ok_iff; [lia|]. exists e'. auto 10. }
      rewrite E' in E2. injection E2 as ->. reflexivity.
  - now apply c_expr_not_err in E; [|lia].
  - split; [easy|]. intros (e' & Hw & Hs & -> & ->). apply wf_iff in Hw as (H1' & H2' & H3').
    assert (E2 : c_expr (S (List.length s)) [] s 0 = (place [] e', COk s [] tt)).
    { apply c_expr_ok_iff; [lia|]. exists e'. auto 10. }
    rewrite E in E2. easy.
Qed.
