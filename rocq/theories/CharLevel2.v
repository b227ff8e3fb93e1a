(** Proof layer, continued: what the character-level parsers accept, and alternations, single
    expressions and expressions. *)
From Verif Require Export CharLevel.

(** ** Scanned text is content *)
Definition classifies (special : str) (f : char -> bool) : Prop :=
  forall c, f c = negb (contains special c).
Lemma classifies_name : classifies name_special is_name.
Proof.
  intros c. unfold is_name, name_special. f_equal. cbn [s_ contains]. rewrite !orb_false_r.
  repeat match goal with |- context [?a =? c] => destruct (a =? c) end; reflexivity.
Qed.
Lemma classifies_optional : classifies optional_special is_in_optional.
Proof.
  intros c. unfold is_in_optional, optional_special. f_equal. cbn [s_ contains]. rewrite !orb_false_r.
  repeat match goal with |- context [?a =? c] => destruct (a =? c) end; reflexivity.
Qed.
Lemma classifies_text : classifies text_special is_without_whitespace.
Proof.
  intros c. unfold is_without_whitespace, text_special. f_equal. cbn [s_ contains]. rewrite !orb_false_r.
  repeat match goal with |- context [?a =? c] => destruct (a =? c) end; reflexivity.
Qed.

Lemma classifies_true special f c : classifies special f -> f c = true <-> ~ In c special.
Proof. intros H. rewrite H, negb_true_iff. apply contains_false. Qed.
Lemma classifies_false special f c : classifies special f -> f c = false <-> In c special.
Proof. intros H. rewrite H, negb_false_iff. apply contains_In. Qed.

Lemma scan_content special f : classifies special f -> In backslash special ->
  forall s t r, scan f s = (t, r) -> content special t.
Proof.
  intros Hf Hb s. induction s as [|c|c d s IH1 IH2] using str_ind2; intros t r H.
  - injection H as <- <-. constructor.
  - rewrite scan_cons in H. destruct (f c) eqn:Hc.
    + injection H as <- <-. constructor; [|constructor]. now apply (classifies_true _ _ _ Hf).
    + destruct (c =? bs); injection H as <- <-; constructor.
  - rewrite scan_cons in H. destruct (f c) eqn:Hc.
    + destruct (scan f (d :: s)) as [t' r'] eqn:E. injection H as <- <-.
      constructor; [now apply (classifies_true _ _ _ Hf)|]. now eapply IH2.
    + destruct (N.eqb_spec c bs) as [->|]; [|injection H as <- <-; constructor].
      destruct (contains reserved_chars d) eqn:Hd; [|injection H as <- <-; constructor].
      destruct (scan f s) as [t' r'] eqn:E. injection H as <- <-.
      apply content_escape; [now apply contains_In|]. now eapply IH1.
Qed.

Lemma scan_app_content special f : classifies special f -> In backslash special ->
  forall t, content special t -> forall s,
  scan f (t ++ s) = let '(t', r) := scan f s in (t ++ t', r).
Proof.
  intros Hf Hb t Ht s. induction Ht as [|c t Hc Ht IH|c t Hc Ht IH].
  - cbn [app]. now destruct (scan f s).
  - cbn [app]. rewrite scan_cons_plain by now apply (classifies_true _ _ _ Hf).
    rewrite IH. now destruct (scan f s).
  - cbn [app]. change backslash with bs. rewrite scan_cons_escape.
    + rewrite IH. now destruct (scan f s).
    + now apply (classifies_false _ _ _ Hf).
    + now apply contains_In.
Qed.

(** What can follow a maximal content without error. *)
Definition ends (special : str) (r : str) : Prop :=
  match r with [] => True | c :: _ => In c special /\ c <> backslash end.
Lemma scan_intro special f : classifies special f -> In backslash special ->
  forall t r, content special t -> ends special r -> scan f (t ++ r) = (t, r) /\ stop r = StopOk.
Proof.
  intros Hf Hb t r Ht Hr. rewrite (scan_app_content _ _ Hf Hb) by assumption.
  rewrite scan_stop.
  - rewrite app_nil_r. split; [reflexivity|]. destruct r as [|c r]; [reflexivity|].
    destruct Hr as [_ Hr]. cbn. now destruct (N.eqb_spec c bs).
  - destruct r as [|c r]; [easy|]. destruct Hr as [Hc Hr].
    split; [now apply (classifies_false _ _ _ Hf)|easy].
Qed.
Lemma scan_ends special f : classifies special f -> In backslash special ->
  forall s t r, scan f s = (t, r) -> stop r = StopOk -> ends special r.
Proof.
  intros Hf Hb s t r. revert s t.
  assert (H : forall s t, scan f s = (t, r) -> stops f r).
  { intros s. induction s as [|c|c d s IH1 IH2] using str_ind2; intros t H.
    - now injection H as <- <-.
    - rewrite scan_cons in H. destruct (f c) eqn:Hc; [now injection H as <- <-|].
      destruct (c =? bs); injection H as <- <-; exact Hc.
    - rewrite scan_cons in H. destruct (f c) eqn:Hc.
      + destruct (scan f (d :: s)) as [t' r'] eqn:E. injection H as <- <-. now eapply IH2.
      + destruct (N.eqb_spec c bs) as [->|]; [|injection H as <- <-; exact Hc].
        destruct (contains reserved_chars d) eqn:Hd; [|injection H as <- <-; exact Hc].
        destruct (scan f s) as [t' r'] eqn:E. injection H as <- <-. now eapply IH1. }
  intros s t Hs Hst. apply H in Hs. destruct r as [|c r]; [easy|].
  cbn in Hs, Hst |- *. split; [now apply (classifies_false _ _ _ Hf)|].
  intros ->. change backslash with bs in Hst. rewrite N.eqb_refl in Hst. now destruct r.
Qed.

Lemma bs_name : In backslash name_special. Proof. cbn; tauto. Qed.
Lemma bs_optional : In backslash optional_special. Proof. cbn; tauto. Qed.
Lemma bs_text : In backslash text_special. Proof. cbn; tauto. Qed.
#[export] Hint Resolve bs_name bs_optional bs_text classifies_name classifies_optional
  classifies_text : core.

Lemma par_ok_iff s t r :
  par_ok s = Some (t, r) <-> s = s_ "{" ++ t ++ s_ "}" ++ r /\ content name_special t.
Proof.
  split.
  - unfold par_ok. destruct s as [|c s1]; [easy|].
    destruct (N.eqb_spec c (c_ "{")) as [->|]; [|easy].
    destruct (scan is_name s1) as [t' r'] eqn:E. destruct r' as [|d r1]; [easy|].
    destruct (N.eqb_spec d (c_ "}")) as [->|]; [|easy]. injection 1 as <- <-.
    split; [|now eapply scan_content; eauto]. apply scan_app in E as ->. reflexivity.
  - intros [-> Ht]. cbn [app s_ par_ok]. change (c_ "{" =? c_ "{") with true. cbn [app].
    cbn iota. destruct (scan_intro name_special is_name) with (t := t) (r := c_ "}" :: r)
      as [-> _]; auto. split; [cbn; tauto|easy].
Qed.
Lemma opt_ok_iff s t r :
  opt_ok s = Some (t, r) <->
  s = s_ "(" ++ t ++ s_ ")" ++ r /\ t <> [] /\ content optional_special t.
Proof.
  split.
  - unfold opt_ok. destruct s as [|c s1]; [easy|].
    destruct (N.eqb_spec c (c_ "(")) as [->|]; [|easy].
    destruct (scan is_in_optional s1) as [t' r'] eqn:E. destruct r' as [|d r1]; [easy|].
    destruct (N.eqb_spec d (c_ ")")) as [->|]; [|easy].
    destruct t' as [|x t']; [easy|]. injection 1 as <- <-.
    split; [|split; [easy|now eapply scan_content; eauto]]. apply scan_app in E as ->. reflexivity.
  - intros [-> [Hn Ht]]. cbn [app s_ opt_ok]. change (c_ "(" =? c_ "(") with true.
    cbn iota. destruct (scan_intro optional_special is_in_optional) with (t := t) (r := c_ ")" :: r)
      as [-> _]; auto. { split; [cbn; tauto|easy]. }
    change (c_ ")" =? c_ ")") with true. destruct t; easy.
Qed.

(** ** Alternatives *)
Definition branch_end (s : str) : Prop :=
  match s with [] => True | c :: _ => In c (s_ " {/") end.

Lemma c_optional_ok_iff p s q r a :
  c_optional p s = COk q r a <->
  exists t, wf_optional (mkOptional t) /\ s = s_ "(" ++ t ++ s_ ")" ++ r /\
            q = p ++ s_ "(" ++ t ++ s_ ")" /\ a = mkOptional (p ++ s_ "(", t).
Proof.
  split.
  - intros H. pose proof (opt_ok_spec p s) as Hp. destruct (opt_ok s) as [[t r']|] eqn:E;
      [|now rewrite H in Hp].
    apply opt_ok_iff in E as [-> [Hn Ht]]. destruct Hp as [_ Hp]. rewrite H in Hp.
    injection Hp as -> -> ->. exists t. repeat split; auto.
  - intros (t & [Hn Ht] & -> & -> & ->). cbn in Hn, Ht.
    pose proof (opt_ok_spec p (s_ "(" ++ t ++ s_ ")" ++ r)) as Hp.
    rewrite (proj2 (opt_ok_iff _ t r)) in Hp by auto. now destruct Hp as [_ ->].
Qed.
Lemma c_optional_err_iff p s :
  (exists e, c_optional p s = CErr e) <-> match s with c :: _ => c <> c_ "(" | [] => True end.
Proof.
  unfold c_optional. destruct s as [|c s]; [split; eauto|].
  destruct (N.eqb_spec c (c_ "(")) as [->|]; [|split; eauto].
  split; [|easy]. intros [e H]. exfalso.
  destruct (c_esc is_in_optional (p ++ [c_ "("]) s) as [q [|d r] t|e'|e'] eqn:E; try easy.
  - destruct (d =? c_ ")"); [|easy]. now destruct (snd t).
  - now apply c_esc_not_err in E.
Qed.
Lemma c_text_ok_iff p s q r x :
  c_text p s = COk q r x <->
  exists t, wf_text t /\ s = t ++ r /\ ends text_special r /\ q = p ++ t /\ x = (p, t).
Proof.
  split.
  - intros H. apply c_text_ok in H as (t & -> & -> & Hs & Ht & Hscan & Hstop).
    exists t. split; [split; [assumption|now eapply scan_content; eauto]|].
    repeat split; auto. now eapply scan_ends; eauto.
  - intros (t & [Hn Ht] & -> & Hr & -> & ->). unfold c_text, c_esc.
    destruct (scan_intro text_special is_without_whitespace) with (t := t) (r := r)
      as [-> ->]; auto. destruct t; easy.
Qed.
Lemma c_text_err_iff p s :
  (exists e, c_text p s = CErr e) <-> ends text_special s.
Proof.
  split.
  - intros [e H]. unfold c_text, c_esc in H.
    destruct (scan is_without_whitespace s) as [t r] eqn:E. destruct (stop r) eqn:Hr.
    + destruct t; [|easy]. pose proof (scan_app _ _ _ _ E) as Hs. cbn in Hs. subst r.
      now eapply scan_ends; eauto.
    + now destruct t.
    + easy.
  - intros H. unfold c_text, c_esc.
    destruct (scan_intro text_special is_without_whitespace) with (t := @nil N) (r := s)
      as [H1 H2]; auto; [constructor|]. cbn [app] in H1. rewrite H1, H2. eauto.
Qed.
Lemma c_alternative_err_iff p s :
  (exists e, c_alternative p s = CErr e) <-> branch_end s.
Proof.
  unfold c_alternative. split.
  - intros [e H]. destruct (c_optional p s) as [|e'|] eqn:E1; [easy| |easy].
    destruct (c_text p s) as [|e''|] eqn:E2; [easy| |easy].
    pose proof (proj1 (c_optional_err_iff p s) (ex_intro _ _ E1)) as H1.
    pose proof (proj1 (c_text_err_iff p s) (ex_intro _ _ E2)) as H2.
    destruct s as [|c s]; [easy|]. cbn in *. destruct H2 as [H2 H3]. unfold backslash in H3.
    intuition.
  - intros H. destruct (proj2 (c_optional_err_iff p s)) as [e1 ->].
    { destruct s as [|c s]; [easy|]. cbn in H. intros ->. intuition easy. }
    destruct (proj2 (c_text_err_iff p s)) as [e2 ->]; [|eauto].
    destruct s as [|c s]; [easy|]. cbn in *. split; [tauto|].
    intros ->. unfold backslash in H. intuition easy.
Qed.

Lemma c_alternative_ok_iff p s q r a :
  c_alternative p s = COk q r a <->
  exists b, wf_alternative b /\ s = src_alternative b ++ r /\
            (is_text b -> ends text_special r) /\
            q = p ++ src_alternative b /\ a = place_alternative p b.
Proof.
  split.
  - unfold c_alternative. destruct (c_optional p s) as [q' r' a'|e|e] eqn:E; [| |easy].
    + injection 1 as <- <- <-. apply c_optional_ok_iff in E as (t & Hw & -> & -> & ->).
      exists (AltOptional (mkOptional t)). cbn. repeat split; try apply Hw; [|easy].
      rewrite <- app_assoc. reflexivity.
    + destruct (c_text p s) as [q' r' a'|e'|e'] eqn:E'; [|easy..].
      injection 1 as <- <- <-. apply c_text_ok_iff in E' as (t & Hw & -> & Hr & -> & ->).
      exists (AltText t). repeat split; try apply Hw; auto.
  - intros (b & Hw & -> & Hr & -> & ->). unfold c_alternative. destruct b as [[t]|t].
    + cbn [src_alternative opt_input].
      rewrite (proj2 (c_optional_ok_iff p _ (p ++ s_ "(" ++ t ++ s_ ")") r
                        (mkOptional (p ++ s_ "(", t)))).
      * reflexivity.
      * exists t. repeat split; try apply Hw. rewrite <- !app_assoc. reflexivity.
    + cbn [src_alternative].
      destruct (proj2 (c_optional_err_iff p (t ++ r))) as [e ->].
      * destruct Hw as [Hn Ht]. destruct Ht as [|c t Hc Ht|c t Hc Ht]; [easy| |easy].
        cbn. intros ->. apply Hc. cbn. tauto.
      * rewrite (proj2 (c_text_ok_iff p (t ++ r) (p ++ t) r (p, t))); [reflexivity|].
        exists t. repeat split; try apply Hw. now apply Hr.
Qed.

(** ** Branches *)
(** No two elements in a row that [R] forbids. *)
Fixpoint linked {A} (R : A -> A -> Prop) (b : list A) : Prop :=
  match b with
  | [] => True
  | x :: b' => match b' with y :: _ => R x y | [] => True end /\ linked R b'
  end.
Lemma linked_iff {A} (R : A -> A -> Prop) b :
  linked R b <-> forall l x y r, b = l ++ x :: y :: r -> R x y.
Proof.
  split.
  - intros H l. revert b H. induction l as [|z l IH]; intros b H x y r ->.
    + cbn in H. tauto.
    + cbn in H. destruct H as [_ H]. eapply IH; [exact H|reflexivity].
  - induction b as [|x b IH]; intros H; [easy|]. cbn. split.
    + destruct b as [|y b]; [easy|]. now apply (H [] x y b).
    + apply IH. intros l y z r ->. now apply (H (x :: l) y z r).
Qed.
Definition not_texts (x y : alternative str) : Prop := ~ (is_text x /\ is_text y).

(** After a text the rest of the input does not continue it. *)
Lemma alternative_head b : wf_alternative b ->
  exists c t, src_alternative b = c :: t /\
    (is_text b -> ends text_special (c :: t) -> False) /\
    (~ is_text b -> c = c_ "(").
Proof.
  destruct b as [[o]|t]; cbn.
  - intros _. eexists _, _. split; [reflexivity|]. split; easy.
  - intros [Hn Ht]. destruct Ht as [|c t Hc Ht|c t Hc Ht]; [easy|..];
      (eexists _, _; split; [reflexivity|]); (split; [|easy]); intros _ [H1 H2]; [now apply Hc|now apply H2].
Qed.
Lemma ends_app_alternative b r : wf_alternative b ->
  (ends text_special (src_alternative b ++ r) <-> ~ is_text b).
Proof.
  intros Hb. destruct (alternative_head b Hb) as (c & t & -> & H1 & H2). cbn. split.
  - intros H Ht. now apply H1 in Ht.
  - intros H. rewrite (H2 H). split; [cbn; tauto|easy].
Qed.

Lemma src_branch_cons a b : src_branch (a :: b) = src_alternative a ++ src_branch b.
Proof. reflexivity. Qed.

Definition items_ok (b : single_alternation str) : Prop :=
  Forall wf_alternative b /\ linked not_texts b.

Lemma branch_end_ends r : branch_end r -> ends text_special r.
Proof.
  destruct r as [|c r]; [easy|]. cbn. intros H. split; [tauto|].
  intros ->. unfold backslash in H. intuition easy.
Qed.
Lemma not_branch_end_alternative b r : wf_alternative b -> ~ branch_end (src_alternative b ++ r).
Proof.
  intros Hb. destruct (alternative_head b Hb) as (c & t & -> & H1 & H2). cbn. intros H.
  assert (Hd : is_text b \/ ~ is_text b) by (destruct b; cbn; tauto).
  destruct Hd as [Hd|Hd].
  - apply H1; [assumption|]. cbn. split; [tauto|]. intros ->. unfold backslash in H. intuition easy.
  - rewrite (H2 Hd) in H. intuition easy.
Qed.

Lemma c_many_ok_iff : forall fuel (p s : str) x (q r : str) u, (List.length s < fuel)%nat ->
  c_many fuel c_alternative p s = (x, COk q r u) <->
  exists b, items_ok b /\ s = src_branch b ++ r /\ branch_end r /\
            q = p ++ src_branch b /\ x = place_branch p b.
Proof.
  induction fuel as [|fuel IH]; intros p s x q r u Hf; [lia|].
  cbn [c_many]. split.
  - destruct (c_alternative p s) as [q' r' a|e|e] eqn:E.
    + destruct (c_many fuel c_alternative q' r') as [x' c] eqn:Ec. injection 1 as <- ->.
      destruct (advances_shorter _ _ _ _ _ _ c_alternative_advances E) as [Hl _].
      apply IH in Ec as (b & [Hb1 Hb2] & -> & Hr & -> & ->); [|lia].
      apply c_alternative_ok_iff in E as (a' & Ha & -> & Hend & -> & ->).
      exists (a' :: b). split; [split|].
      * now constructor.
      * cbn. split; [|assumption]. destruct b as [|y b]; [easy|]. intros [H1 H2].
        inversion Hb1. rewrite src_branch_cons, <- app_assoc in Hend.
        now apply (ends_app_alternative y (src_branch b ++ r)) in Hend.
      * rewrite src_branch_cons. rewrite <- !app_assoc. repeat split; auto.
    + injection 1 as <- <- <- _. exists []. split; [split; [constructor|exact I]|].
      rewrite app_nil_r. repeat split. apply (c_alternative_err_iff p). eauto.
    + easy.
  - intros (b & [Hb1 Hb2] & -> & Hr & -> & ->). destruct b as [|a b].
    + cbn [src_branch List.concat map app] in *.
      destruct (proj2 (c_alternative_err_iff p r) Hr) as [e He]. rewrite He.
      rewrite app_nil_r. destruct u. reflexivity.
    + rewrite src_branch_cons, <- app_assoc in *. inversion Hb1 as [|? ? Ha Hb]; subst.
      assert (E : c_alternative p (src_alternative a ++ src_branch b ++ r)
              = COk (p ++ src_alternative a) (src_branch b ++ r) (place_alternative p a)).
      { apply c_alternative_ok_iff. exists a. repeat split; auto. intros Ht.
        destruct b as [|y b]; [now apply branch_end_ends|].
        rewrite src_branch_cons, <- app_assoc. inversion Hb. apply ends_app_alternative; auto.
        cbn in Hb2. unfold not_texts in Hb2. tauto. }
      rewrite E. destruct (advances_shorter _ _ _ _ _ _ c_alternative_advances E) as [Hl _].
      rewrite (proj2 (IH (p ++ src_alternative a) (src_branch b ++ r)
        (place_branch (p ++ src_alternative a) b)
        (p ++ src_alternative a ++ src_branch b) r u ltac:(lia))).
      * reflexivity.
      * exists b. cbn in Hb2. rewrite <- app_assoc. repeat split; auto; apply Hb2.
Qed.

Lemma c_many_S {A} (P : str -> str -> cres A) fuel p s :
  c_many (S fuel) P p s =
      match P p s with
      | CErr _ => ([], COk p s tt)
      | CFail e => ([], CFail e)
      | COk q r a => let '(l, c) := c_many fuel P q r in (a :: l, c)
      end.
Proof. reflexivity. Qed.

(** Fuel beyond the length does not matter. *)
Lemma c_many_fuel {A} (P : str -> str -> cres A) : advances P ->
  forall fuel fuel' p s, (List.length s < fuel)%nat -> (List.length s < fuel')%nat ->
  c_many fuel P p s = c_many fuel' P p s.
Proof.
  intros HP. induction fuel as [|fuel IH]; intros [|fuel'] p s H1 H2; try lia.
  cbn [c_many]. destruct (P p s) as [q r a|e|e] eqn:E; [|easy..].
  destruct (advances_shorter _ _ _ _ _ _ HP E) as [Hl _].
  now rewrite (IH fuel') by lia.
Qed.

Lemma c_branch_ok_iff p s q r x :
  c_branch p s = COk q r x <->
  exists b, b <> [] /\ items_ok b /\ s = src_branch b ++ r /\ branch_end r /\
            q = p ++ src_branch b /\ x = place_branch p b.
Proof.
  assert (H : c_branch p s = COk q r x <->
    (x <> [] /\ c_many (S (List.length s)) c_alternative p s = (x, COk q r tt))).
  { unfold c_branch. rewrite c_many_S.
    destruct (c_alternative p s) as [q' r' a|e|e] eqn:E.
    - destruct (advances_shorter _ _ _ _ _ _ c_alternative_advances E) as [Hl _].
      rewrite (c_many_fuel c_alternative c_alternative_advances (S (List.length r')) (List.length s))
        by lia.
      destruct (c_many (List.length s) c_alternative q' r') as [x' [q2 r2 u|e|e]]; cbn.
      + split; [injection 1 as <- <- <-; destruct u; easy|].
        intros [_ H]. injection H as <- <- <- _. reflexivity.
      + split; [easy|intros [_ H]; easy].
      + split; [easy|intros [_ H]; easy].
    - split; [easy|]. intros [Hn H]. injection H as <- _ _. easy.
    - split; [easy|]. intros [_ H]. easy. }
  rewrite H, c_many_ok_iff by lia. split.
  - intros [Hn (b & Hb & Hs & Hr & Hq & Hx)]. exists b. repeat split; auto; try apply Hb.
    intros ->. now subst x.
  - intros (b & Hn & Hb & Hs & Hr & Hq & Hx). split; [|exists b; tauto].
    subst x. destruct b; easy.
Qed.
Lemma c_branch_err_iff p s : (exists e, c_branch p s = CErr e) <-> branch_end s.
Proof.
  unfold c_branch. split.
  - intros [e H]. destruct (c_alternative p s) as [q' r' a|e'|e'] eqn:E; [|..|easy].
    + destruct (c_many (S (List.length r')) c_alternative q' r') as [x' [|e'|]] eqn:Ec; try easy.
      exfalso. clear E H s. revert q' r' x' Ec.
      assert (G : forall fuel p s x e', (List.length s < fuel)%nat ->
                    c_many fuel c_alternative p s <> (x, CErr e')).
      { induction fuel as [|fuel IH]; intros p1 s x e1 Hf; [lia|]. cbn [c_many].
        destruct (c_alternative p1 s) as [q' r' a'|e2|e2] eqn:E; [|easy..].
        destruct (advances_shorter _ _ _ _ _ _ c_alternative_advances E) as [Hl _].
        destruct (c_many fuel c_alternative q' r') as [x' c] eqn:Ec.
        intros H. injection H as <- ->. revert Ec. apply IH. lia. }
      intros q' r' x' Ec. revert Ec. apply G. lia.
    + apply (c_alternative_err_iff p). eauto.
  - intros H. destruct (proj2 (c_alternative_err_iff p s) H) as [e ->]. eauto.
Qed.
Lemma c_branch_err p s e : c_branch p s = CErr e -> e = Other (p, s) KMany1.
Proof.
  intros H. pose proof (proj1 (c_branch_err_iff p s) (ex_intro _ _ H)) as Hb.
  unfold c_branch in H. destruct (proj2 (c_alternative_err_iff p s) Hb) as [e' He].
  rewrite He in H. congruence.
Qed.

(** ** Alternations *)
Definition tail_of (a : alternation str) : str := List.concat (map (fun b => s_ "/" ++ src_branch b) a).
Fixpoint place_tail (pre : str) (a : alternation str) : alternation text_at :=
  match a with
  | [] => []
  | b :: a' => place_branch (pre ++ s_ "/") b :: place_tail (pre ++ s_ "/" ++ src_branch b) a'
  end.
Definition branch_ok (b : single_alternation str) : Prop := b <> [] /\ items_ok b.
Lemma tail_cons b a : tail_of (b :: a) = s_ "/" ++ src_branch b ++ tail_of a.
Proof. unfold tail_of. cbn [map List.concat]. now rewrite <- app_assoc. Qed.

Lemma tail_of_branch_end a r : branch_end r -> branch_end (tail_of a ++ r).
Proof. destruct a; [easy|]. cbn. tauto. Qed.

(** After the list: the end of a branch; a slash only if no branch follows it. *)
Definition list_end (r : str) : Prop :=
  branch_end r /\ (match r with c :: r1 => c = c_ "/" -> branch_end r1 | [] => True end).

Lemma app_tail_nil p : p ++ tail_of [] = p.
Proof. apply app_nil_r. Qed.
Lemma c_seps_ok_iff : forall fuel (p s : str) x (q r : str) u, (List.length s < fuel)%nat -> branch_end s ->
  c_seps fuel p s = (x, COk q r u) <->
  exists a, Forall branch_ok a /\ s = tail_of a ++ r /\ list_end r /\
            q = p ++ tail_of a /\ x = place_tail p a.
Proof.
  induction fuel as [|fuel IH]; intros p s x q r u Hf Hbe; [lia|]. cbn [c_seps]. split.
  - intros H. destruct s as [|c s1].
    { injection H as <- <- <- _. exists []. rewrite (app_tail_nil p). repeat split; auto. }
    destruct (N.eqb_spec c (c_ "/")) as [->|Hne].
    + destruct (c_branch (p ++ [c_ "/"]) s1) as [q' r' b|e|e] eqn:E; [| |easy].
      * destruct (c_seps fuel q' r') as [x' c'] eqn:Ec. injection H as <- ->.
        destruct (advances_shorter _ _ _ _ _ _ c_branch_advances E) as [Hl _].
        apply c_branch_ok_iff in E as (b' & Hn & Hb & -> & Hr & -> & ->).
        cbn in Hf. apply IH in Ec as (a & Ha & -> & Hend & -> & ->); [|lia|assumption].
        exists (b' :: a). rewrite tail_cons. split; [constructor; [split|]; auto|].
        split; [cbn; now rewrite <- !app_assoc|]. split; [assumption|].
        split; [now rewrite <- !app_assoc|].
        cbn [place_tail]. now rewrite <- app_assoc.
      * injection H as <- <- <- _. exists []. rewrite (app_tail_nil p). split; [auto|].
        split; [reflexivity|]. split; [|auto]. split; [assumption|].
        intros _. apply (c_branch_err_iff (p ++ [c_ "/"])). eauto.
    + injection H as <- <- <- _. exists []. rewrite (app_tail_nil p). split; [auto|].
      split; [reflexivity|]. split; [|auto]. split; [assumption|easy].
  - intros (a & Ha & -> & [Hend1 Hend2] & -> & ->). destruct a as [|b a].
    + cbn [tail_of map List.concat app place_tail] in *. rewrite app_nil_r.
      destruct r as [|c r1]; [now destruct u|].
      destruct (N.eqb_spec c (c_ "/")) as [->|]; [|now destruct u].
      destruct (proj2 (c_branch_err_iff (p ++ [c_ "/"]) r1)) as [e ->]; [auto|now destruct u].
    + inversion Ha as [|? ? [Hn Hb] Ha']; subst. rewrite tail_cons in *.
      rewrite <- !app_assoc in *. cbn [s_ app] in *. change (c_ "/" =? c_ "/") with true.
      cbn iota.
      assert (E : c_branch (p ++ [c_ "/"]) (src_branch b ++ tail_of a ++ r)
        = COk ((p ++ [c_ "/"]) ++ src_branch b) (tail_of a ++ r) (place_branch (p ++ [c_ "/"]) b)).
      { apply c_branch_ok_iff. exists b. split; [assumption|]. split; [assumption|].
        split; [reflexivity|]. split; [|split; reflexivity]. now apply tail_of_branch_end. }
      rewrite E. destruct (advances_shorter _ _ _ _ _ _ c_branch_advances E) as [Hl _].
      cbn [List.length] in Hf.
      rewrite (proj2 (IH ((p ++ [c_ "/"]) ++ src_branch b) (tail_of a ++ r)
        (place_tail (p ++ s_ "/" ++ src_branch b) a)
        (p ++ c_ "/" :: src_branch b ++ tail_of a) r u ltac:(lia) ltac:(now apply tail_of_branch_end))).
      * reflexivity.
      * exists a. split; [assumption|]. split; [reflexivity|]. split; [now split|].
        split; [now rewrite <- !app_assoc|now rewrite <- app_assoc].
Qed.
Lemma c_seps_not_err : forall fuel p s x e, (List.length s < fuel)%nat ->
  c_seps fuel p s <> (x, CErr e).
Proof.
  induction fuel as [|fuel IH]; intros p s x e Hf; [lia|]. cbn [c_seps].
  destruct s as [|c s1]; [easy|]. destruct (c =? c_ "/"); [|easy].
  destruct (c_branch (p ++ [c]) s1) as [q' r' b|e'|e'] eqn:E; [|easy..].
  destruct (advances_shorter _ _ _ _ _ _ c_branch_advances E) as [Hl _].
  destruct (c_seps fuel q' r') as [x' c'] eqn:Ec. intros H. injection H as <- ->.
  revert Ec. apply IH. cbn in Hf. lia.
Qed.

Lemma join_tail b a : join (s_ "/") (map src_branch (b :: a)) = src_branch b ++ tail_of a.
Proof.
  revert b. induction a as [|c a IH]; intros b.
  - cbn. now rewrite app_nil_r.
  - change (join (s_ "/") (map src_branch (b :: c :: a)))
      with (src_branch b ++ s_ "/" ++ join (s_ "/") (map src_branch (c :: a))).
    rewrite IH, tail_cons. reflexivity.
Qed.
Lemma place_alternation_tail : forall a pre b,
  place_alternation pre (b :: a) = place_branch pre b :: place_tail (pre ++ src_branch b) a.
Proof.
  induction a as [|c a IH]; intros pre b; [reflexivity|].
  change (place_alternation pre (b :: c :: a))
    with (place_branch pre b :: place_alternation (pre ++ src_branch b ++ s_ "/") (c :: a)).
  rewrite IH. cbn [place_tail]. now rewrite <- !app_assoc.
Qed.

(** Lengths. *)
Lemma span_len_alternative o l p a :
  alternative_len input_len (map_alternative (span_at o l) (place_alternative p a))
  = blen (src_alternative a).
Proof.
  destruct a as [[t]|t]; [|reflexivity].
  change (blen t + 2 = blen (s_ "(" ++ t ++ s_ ")")). rewrite !blen_app.
  change (blen (s_ "(")) with 1. change (blen (s_ ")")) with 1. lia.
Qed.
Lemma sum_app x y : sum (x ++ y) = sum x + sum y.
Proof. unfold sum. induction x as [|a x IH]; cbn; [lia|]. rewrite IH. lia. Qed.
Lemma span_len_branch o l : forall b p,
  sum (map (alternative_len input_len) (map (map_alternative (span_at o l)) (place_branch p b)))
  = blen (src_branch b).
Proof.
  induction b as [|a b IH]; intros p; [reflexivity|].
  cbn [place_branch map]. rewrite src_branch_cons, blen_app.
  change (sum (?x :: ?y)) with (x + sum y). rewrite IH, span_len_alternative. reflexivity.
Qed.
Lemma span_len_tail o l : forall a p,
  sum (map (alternative_len input_len)
        (List.concat (map_alternation (span_at o l) (place_tail p a)))) + N.of_nat (List.length a)
  = blen (tail_of a).
Proof.
  induction a as [|b a IH]; intros p; [reflexivity|].
  rewrite tail_cons, !blen_app, <- (IH (p ++ s_ "/" ++ src_branch b)).
  cbn [place_tail map_alternation map List.concat List.length]. rewrite map_app, sum_app.
  rewrite span_len_branch. unfold map_alternation. change (blen (s_ "/")) with 1. lia.
Qed.
Lemma length_place_tail : forall a p, List.length (place_tail p a) = List.length a.
Proof. induction a; intros; cbn; auto. Qed.
Lemma span_len_at o l p b a :
  span_len input_len
    (map_alternation (span_at o l) (place_branch p b :: place_tail (p ++ src_branch b) a))
  = Some (blen (src_branch b ++ tail_of a)).
Proof.
  unfold span_len. cbn [map_alternation map List.concat List.length].
  rewrite map_app, sum_app, span_len_branch, map_length, length_place_tail.
  pose proof (span_len_tail o l a (p ++ src_branch b)) as H.
  unfold map_alternation in H. rewrite blen_app, <- H.
  destruct (N.eqb_spec
   (blen (src_branch b) +
    sum (map (alternative_len input_len)
      (List.concat (map (map (map_alternative (span_at o l))) (place_tail (p ++ src_branch b) a)))) +
    N.of_nat (S (List.length a))) 0); [lia|]. f_equal. lia.
Qed.

Lemma contains_only_optional_map {I J} (f : I -> J) (a : alternation I) :
  contains_only_optional (map_alternation f a) = contains_only_optional a.
Proof.
  unfold contains_only_optional, map_alternation. induction a as [|b a IH]; [reflexivity|].
  cbn [map existsb]. rewrite IH. f_equal.
  clear. induction b as [|x b IH]; [reflexivity|]. cbn [map forallb]. rewrite IH. f_equal.
  now destruct x.
Qed.

Lemma starts_slash_tag o l p s :
  peek (tag (s_ "/")) (at_ o l p s)
  = if starts_slash s then Ok (at_ o l p s) (at_ o l p [c_ "/"])
    else Bad (BError (Other (at_ o l p s) KTag)).
Proof.
  unfold peek. change (s_ "/") with [c_ "/"]. rewrite tag1_at by reflexivity.
  unfold starts_slash. destruct s as [|c s]; [reflexivity|].
  rewrite (N.eqb_sym c). destruct (N.eqb_spec (c_ "/") c); reflexivity.
Qed.

Lemma firstn_app_exact {A} (t r : list A) :
  firstn (List.length (t ++ r) - List.length r) (t ++ r) = t.
Proof.
  rewrite app_length. replace (List.length t + List.length r - List.length r)%nat
    with (List.length t + 0)%nat by lia. rewrite firstn_app_2. cbn. now rewrite app_nil_r.
Qed.

Lemma parse_alternation_at o l p s :
  parse_alternation (at_ o l p s)
  = lift o l (map_alternation (span_at o l)) (c_alternation p s).
Proof.
  unfold parse_alternation, separated_list1, c_alternation. rewrite branch_at.
  destruct (c_branch p s) as [q r b|e|e] eqn:E; cbn [lift].
  - rewrite seps_at by (rewrite frag_at; lia). rewrite frag_at.
    destruct (c_seps (S (List.length r)) q r) as [x [q' r' u|e|e]] eqn:Ec; cbn [lift].
    + cbn [rev app]. rewrite starts_slash_tag. destruct (starts_slash r'); [reflexivity|].
      change (map (map_alternative (span_at o l)) b :: map_alternation (span_at o l) x)
        with (map_alternation (span_at o l) (b :: x)).
      destruct x as [|b1 x]; [reflexivity|].
      cbn [List.length map_alternation map Nat.eqb].
      change (map (map_alternative (span_at o l)) b :: map (map_alternative (span_at o l)) b1
              :: map (map (map_alternative (span_at o l))) x)
        with (map_alternation (span_at o l) (b :: b1 :: x)).
      rewrite contains_only_optional_map.
      destruct (contains_only_optional (b :: b1 :: x)); [|reflexivity].
      apply c_branch_ok_iff in E as (b' & Hn & Hb & -> & Hr & -> & ->).
      apply c_seps_ok_iff in Ec as (a & Ha & -> & Hend & -> & Hx); [|lia|assumption].
      rewrite Hx, span_len_at. rewrite app_assoc.
      rewrite firstn_app_exact. cbn [lift]. f_equal. now apply fail_take_at.
    + now apply c_seps_not_err in Ec; [|lia].
    + reflexivity.
  - pose proof (c_branch_err _ _ _ E) as ->. cbn [map_error].
    change (span_at o l (p, s)) with (at_ o l p s).
    rewrite starts_slash_tag. unfold starts_slash. destruct s as [|c s]; [reflexivity|].
    destruct (N.eqb_spec c (c_ "/")) as [->|]; [|reflexivity].
    cbn [lift]. f_equal. now apply fail_take_one.
  - destruct e; reflexivity.
Qed.
