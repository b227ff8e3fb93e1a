(** The depth of the recursion of [parameter] and [optional]. *)
From Verif Require Export ProofParse2.

Lemma fail_take_fuel E i n : fail_take E i n <> BFuel.
Proof. unfold fail_take. now destruct (take i n). Qed.
Lemma if_ok_fuel {A} (r : result A) yes no : (forall a, yes a <> BFuel) -> no <> BFuel ->
  if_ok r yes no = BFuel <-> r = Bad BFuel.
Proof.
  intros Hy Hn. destruct r as [i a|[]]; cbn; split; try easy. intros H. now apply Hy in H.
Qed.
Lemma esc_fuel f i : f bs = false -> escaped_reserved_chars0 (take_while f) i <> Bad BFuel.
Proof.
  intros Hf. destruct i as [o l s]. rewrite at_nil, esc_at by assumption.
  unfold c_esc. destruct (scan f s) as [[|] r]; destruct (stop r); easy.
Qed.
Lemma tag_fuel t i : tag t i <> Bad BFuel.
Proof.
  unfold tag, split_result. repeat match goal with |- context [match ?x with _ => _ end] => destruct x end; easy.
Qed.
Lemma bind_closing_fuel {A B} f t (r : result A) (g : A -> B) : f bs = false ->
  bind r (fun i1 a => bind (escaped_reserved_chars0 (take_while f) i1) (fun i2 _ =>
    bind (tag t i2) (fun i3 _ => Ok i3 (g a)))) = Bad BFuel <-> r = Bad BFuel.
Proof.
  intros Hf. destruct r as [i a|b]; cbn [bind]; [|split; congruence].
  split; [|easy]. pose proof (esc_fuel f i Hf) as He.
  destruct (escaped_reserved_chars0 (take_while f) i) as [i2 x|b]; cbn [bind]; [|intros H; congruence].
  pose proof (tag_fuel t i2). destruct (tag t i2); cbn [bind]; congruence.
Qed.

Definition par_fuel (d : nat) (s : str) : Prop := d = 0%nat \/ (exists r, s = s_ "{" ++ r) /\ nested (S d) s.
Definition opt_fuel (d : nat) (s : str) : Prop := d = 0%nat \/ (exists r, s = s_ "(" ++ r) /\ nested (S d) s.

Lemma nested_split n s : nested (S n) s ->
  exists c special t r, s = [c] ++ t ++ r /\ content special t /\ nested n r /\
    (c = c_ "{" /\ special = name_special \/ c = c_ "(" /\ special = optional_special).
Proof.
  inversion 1; subst; [exists (c_ "{"), name_special|exists (c_ "("), optional_special]; eauto 10.
Qed.
Lemma nested_start n s : nested (S n) s -> starts_with_in (s_ "{(") s.
Proof.
  intros H. apply nested_split in H as (c & sp & t & r & -> & _ & _ & [[-> _]|[-> _]]); cbn.
  - exists (c_ "{"), (t ++ r). cbn. auto.
  - exists (c_ "("), (t ++ r). cbn. auto.
Qed.


(** One level. *)
Lemma par_step d o l p s ix : ix < usize_max ->
  fst (parameter_d (S d) (at_ o l p s) ix) = Bad BFuel <->
  exists t r, s = s_ "{" ++ t ++ r /\ content name_special t /\
    ((exists r', r = c_ "{" :: r') /\ fst (parameter_d d (at_ o l (p ++ s_ "{" ++ t) r) 0) = Bad BFuel \/
     (exists r', r = c_ "(" :: r') /\ optional_d d (at_ o l (p ++ s_ "{" ++ t) r) = Bad BFuel).
Proof.
  intros Hix. cbn [parameter_d].
  change (s_ "{") with [c_ "{"]. change (s_ "}") with [c_ "}"].
  rewrite tag1_at by reflexivity.
  destruct s as [|c s1].
  { split; [easy|]. intros (t & r & E & _). easy. }
  destruct (N.eqb_spec (c_ "{") c) as [<-|Hc].
  2: { split; [easy|]. intros (t & r & E & _). injection E as E _. exfalso; now apply Hc. }
  rewrite esc_at by reflexivity.
  destruct (c_esc is_name (p ++ [c_ "{"]) s1) as [q r x|e|e] eqn:Ee.
  2: { now apply c_esc_not_err in Ee. }
  2: { cbn [lift fst]. split; [easy|]. intros (t & r & E & Ht & Hr). exfalso.
       injection E as ->.
       assert (Hend : ends name_special r).
       { destruct Hr as [[[r' ->] _]|[[r' ->] _]]; (split; [cbn; tauto|easy]). }
       rewrite (proj2 (c_esc_ok_iff name_special is_name classifies_name bs_name _ _
                        ((p ++ [c_ "{"]) ++ t) r (p ++ [c_ "{"], t))) in Ee by eauto 10.
       easy. }
  apply (c_esc_ok_iff name_special is_name) in Ee as (t & Ht & -> & Hr & -> & ->); auto.
  cbn [lift].
  match goal with |- context [map_err _ ?G] => set (F := G) end.
  assert (Huniq : forall t' r', [c_ "{"] ++ t ++ r = [c_ "{"] ++ t' ++ r' -> content name_special t' ->
            ends name_special r' -> t' = t /\ r' = r).
  { intros t' r' E Ht' Hr'. injection E as E.
    pose proof (scan_intro name_special is_name classifies_name bs_name t r Ht Hr) as [H1 _].
    pose proof (scan_intro name_special is_name classifies_name bs_name t' r' Ht' Hr') as [H2 _].
    rewrite E in H1. rewrite H1 in H2. now injection H2. }
  assert (Hb : forall c r' , c = c_ "{" \/ c = c_ "(" -> ends name_special (c :: r')).
  { intros c r' [->| ->]; (split; [cbn; tauto|easy]). }
  assert (HF : forall b, F b = BFuel <->
    ((exists r', r = c_ "{" :: r') /\ fst (parameter_d d (at_ o l (p ++ [c_ "{"] ++ t) r) 0) = Bad BFuel \/
     (exists r', r = c_ "(" :: r') /\ optional_d d (at_ o l (p ++ [c_ "{"] ++ t) r) = Bad BFuel)).
  { intros b. unfold F. rewrite iter_elements_at. destruct r as [|c r1].
    { split; [easy|]. intros [[[? ?] _]|[[? ?] _]]; easy. }
    destruct (N.eqb_spec c (c_ "{")) as [->|H1].
    - rewrite if_ok_fuel by (intros; apply fail_take_fuel).
      rewrite (bind_closing_fuel is_name [c_ "}"]) by reflexivity. rewrite <- app_assoc.
      split; [intros H; left; eauto|]. intros [[_ H]|[[? ?] _]]; [assumption|easy].
    - destruct (N.eqb_spec c (c_ "(")) as [->|H2].
      + rewrite if_ok_fuel by (intros; apply fail_take_fuel). unfold peek. rewrite <- app_assoc.
        match goal with |- context [match ?X with Ok _ _ => _ | Bad _ => _ end] => destruct X as [i a|b'] end.
        * split; [easy|]. intros [[[? E] _]|[_ H]]; easy.
        * split; [intros H; right; split; eauto; congruence|]. intros [[[? E] _]|[_ H]]; [easy|congruence].
      + split.
        * destruct (contains reserved_chars c); [|easy]. intros H. now apply fail_take_fuel in H.
        * intros [[[? E] _]|[[? E] _]]; congruence. }
  unfold map_err. rewrite tag1_at by reflexivity.
  assert (Hmain : F BFuel = BFuel <->
    exists t' r', [c_ "{"] ++ t ++ r = [c_ "{"] ++ t' ++ r' /\ content name_special t' /\
    ((exists r1, r' = c_ "{" :: r1) /\ fst (parameter_d d (at_ o l (p ++ [c_ "{"] ++ t') r') 0) = Bad BFuel \/
     (exists r1, r' = c_ "(" :: r1) /\ optional_d d (at_ o l (p ++ [c_ "{"] ++ t') r') = Bad BFuel)).
  { rewrite HF. split; [intros H; eauto|]. intros (t' & r' & E & Ht' & H).
    destruct (Huniq t' r' E Ht') as [-> ->]; [|assumption].
    destruct H as [[[r1 ->] _]|[[r1 ->] _]]; apply Hb; auto. }
  assert (HFb : forall b, F b = BFuel <-> F BFuel = BFuel) by (intros b; rewrite !HF; reflexivity).
  cbn [app] in Hmain. cbn [app]. rewrite <- Hmain.
  destruct r as [|c r1]; cbn [fst].
  - rewrite <- HFb. split; [intros H; injection H as H; exact H|intros H; f_equal; exact H].
  - destruct (N.eqb_spec (c_ "}") c) as [<-|Hne].
    + destruct (N.ltb_spec usize_max (ix + 1)); [lia|]. cbn [fst]. split; [easy|].
      rewrite HF. intros [[[? E] _]|[[? E] _]]; easy.
    + rewrite <- HFb. cbn [fst]. split; [intros H; injection H as H; exact H|intros H; f_equal; exact H].
Qed.

Lemma opt_step d o l p s :
  optional_d (S d) (at_ o l p s) = Bad BFuel <->
  exists t r, s = s_ "(" ++ t ++ r /\ content optional_special t /\
    ((exists r', r = c_ "{" :: r') /\ fst (parameter_d d (at_ o l (p ++ s_ "(" ++ t) r) 0) = Bad BFuel \/
     (exists r', r = c_ "(" :: r') /\ optional_d d (at_ o l (p ++ s_ "(" ++ t) r) = Bad BFuel).
Proof.
  cbn [optional_d].
  change (s_ "(") with [c_ "("]. change (s_ ")") with [c_ ")"].
  rewrite tag1_at by reflexivity.
  destruct s as [|c s1].
  { split; [easy|]. intros (t & r & E & _). easy. }
  destruct (N.eqb_spec (c_ "(") c) as [<-|Hc].
  2: { split; [easy|]. intros (t & r & E & _). injection E as E _. exfalso. now apply Hc. }
  rewrite esc_at by reflexivity.
  destruct (c_esc is_in_optional (p ++ [c_ "("]) s1) as [q r x|e|e] eqn:Ee.
  2: { now apply c_esc_not_err in Ee. }
  2: { cbn [lift fst]. split; [easy|]. intros (t & r & E & Ht & Hr). exfalso.
       injection E as ->.
       assert (Hend : ends optional_special r).
       { destruct Hr as [[[r' ->] _]|[[r' ->] _]]; (split; [cbn; tauto|easy]). }
       rewrite (proj2 (c_esc_ok_iff optional_special is_in_optional classifies_optional bs_optional _ _
                        ((p ++ [c_ "("]) ++ t) r (p ++ [c_ "("], t))) in Ee by eauto 10.
       easy. }
  apply (c_esc_ok_iff optional_special is_in_optional) in Ee as (t & Ht & -> & Hr & -> & ->); auto.
  cbn [lift].
  match goal with |- context [map_err _ ?G] => set (F := G) end.
  assert (Huniq : forall t' r', [c_ "("] ++ t ++ r = [c_ "("] ++ t' ++ r' -> content optional_special t' ->
            ends optional_special r' -> t' = t /\ r' = r).
  { intros t' r' E Ht' Hr'. injection E as E.
    pose proof (scan_intro optional_special is_in_optional classifies_optional bs_optional t r Ht Hr) as [H1 _].
    pose proof (scan_intro optional_special is_in_optional classifies_optional bs_optional t' r' Ht' Hr') as [H2 _].
    rewrite E in H1. rewrite H1 in H2. now injection H2. }
  assert (Hb : forall c r' , c = c_ "{" \/ c = c_ "(" -> ends optional_special (c :: r')).
  { intros c r' [->| ->]; (split; [cbn; tauto|easy]). }
  assert (HF : forall b, F b = BFuel <->
    ((exists r', r = c_ "{" :: r') /\ fst (parameter_d d (at_ o l (p ++ [c_ "("] ++ t) r) 0) = Bad BFuel \/
     (exists r', r = c_ "(" :: r') /\ optional_d d (at_ o l (p ++ [c_ "("] ++ t) r) = Bad BFuel)).
  { intros b. unfold F. rewrite iter_elements_at. destruct r as [|c r1].
    { split; [easy|]. intros [[[? ?] _]|[[? ?] _]]; easy. }
    destruct (N.eqb_spec c (c_ "(")) as [->|H1].
    - rewrite if_ok_fuel by (intros; apply fail_take_fuel).
      rewrite (bind_closing_fuel is_in_optional [c_ ")"]) by reflexivity. rewrite <- app_assoc.
      split; [intros H; right; eauto|]. intros [[[? ?] _]|[_ H]]; [easy|assumption].
    - destruct (N.eqb_spec c (c_ "{")) as [->|H2].
      + rewrite if_ok_fuel by (intros; apply fail_take_fuel). unfold peek. rewrite <- app_assoc.
        match goal with |- context [match ?X with Ok _ _ => _ | Bad _ => _ end] => destruct X as [i a|b'] end.
        * split; [easy|]. intros [[_ H]|[[? E] _]]; easy.
        * split; [intros H; left; split; eauto; congruence|]. intros [[_ H]|[[? E] _]]; [congruence|easy].
      + split.
        * destruct (c =? c_ "/"); [intros H; now apply fail_take_fuel in H|].
          destruct (contains reserved_chars c); [|easy]. intros H. now apply fail_take_fuel in H.
        * intros [[[? E] _]|[[? E] _]]; congruence. }
  unfold map_err. rewrite tag1_at by reflexivity.
  assert (Hmain : F BFuel = BFuel <->
    exists t' r', [c_ "("] ++ t ++ r = [c_ "("] ++ t' ++ r' /\ content optional_special t' /\
    ((exists r1, r' = c_ "{" :: r1) /\ fst (parameter_d d (at_ o l (p ++ [c_ "("] ++ t') r') 0) = Bad BFuel \/
     (exists r1, r' = c_ "(" :: r1) /\ optional_d d (at_ o l (p ++ [c_ "("] ++ t') r') = Bad BFuel)).
  { rewrite HF. split; [intros H; eauto|]. intros (t' & r' & E & Ht' & H).
    destruct (Huniq t' r' E Ht') as [-> ->]; [|assumption].
    destruct H as [[[r1 ->] _]|[[r1 ->] _]]; apply Hb; auto. }
  assert (HFb : forall b, F b = BFuel <-> F BFuel = BFuel) by (intros b; rewrite !HF; reflexivity).
  cbn [app] in Hmain. cbn [app]. rewrite <- Hmain.
  destruct r as [|c r1]; cbn [fst].
  - rewrite <- HFb. split; [intros H; injection H as H; exact H|intros H; f_equal; exact H].
  - destruct (N.eqb_spec (c_ ")") c) as [<-|Hne].
    + assert (HN : F BFuel <> BFuel).
      { rewrite HF. intros [[[? E] _]|[[? E] _]]; easy. }
      match goal with |- (if ?b then _ else _) = _ <-> _ => destruct b end.
      * split; [|easy]. intros H. injection H as H. now apply fail_take_fuel in H.
      * split; easy.
    + rewrite <- HFb. cbn [fst]. split; [intros H; injection H as H; exact H|intros H; f_equal; exact H].
Qed.

Lemma nested_brace_inv n s : nested (S n) (c_ "{" :: s) ->
  exists t r, s = t ++ r /\ content name_special t /\ nested n r.
Proof. intros H; inversion H; subst; eauto. Qed.
Lemma nested_paren_inv n s : nested (S n) (c_ "(" :: s) ->
  exists t r, s = t ++ r /\ content optional_special t /\ nested n r.
Proof. intros H; inversion H; subst; eauto. Qed.

Lemma depth_iff : forall d,
  (forall o l p s ix, ix < usize_max ->
     fst (parameter_d d (at_ o l p s) ix) = Bad BFuel <-> par_fuel d s) /\
  (forall o l p s, optional_d d (at_ o l p s) = Bad BFuel <-> opt_fuel d s).
Proof.
  induction d as [|d [IHp IHo]].
  - split; intros; cbn; unfold par_fuel, opt_fuel; tauto.
  - assert (Hz : 0 < usize_max) by reflexivity.
    assert (Hfuel : forall r, ((exists r', r = c_ "{" :: r') /\ par_fuel d r \/
                               (exists r', r = c_ "(" :: r') /\ opt_fuel d r) <-> nested (S d) r).
    { intros r. unfold par_fuel, opt_fuel. split.
      - intros [[[r' ->] [->|[_ H]]]|[[r' ->] [->|[_ H]]]]; auto.
        + apply (nested_brace 0 [] r'); constructor.
        + apply (nested_paren 0 [] r'); constructor.
      - intros H. pose proof (nested_start d r H) as (c & r' & -> & [<-|[<-|[]]]).
        + left. split; [eauto|]. right. split; [now exists r'|assumption].
        + right. split; [eauto|]. right. split; [now exists r'|assumption]. }
    split.
    + intros o l p s ix Hix. rewrite par_step by assumption. unfold par_fuel. split.
      * intros (t & r & -> & Ht & H). right. split; [now exists (t ++ r)|].
        apply nested_brace; [assumption|]. apply Hfuel.
        destruct H as [[H1 H2]|[H1 H2]]; [left|right]; (split; [assumption|]).
        -- now apply IHp in H2.
        -- now apply IHo in H2.
      * intros [H|[[r ->] H]]; [easy|]. apply nested_brace_inv in H as (t & r' & -> & Ht & Hn).
        exists t, r'. split; [reflexivity|]. split; [assumption|].
        apply Hfuel in Hn as [[H1 H2]|[H1 H2]]; [left|right]; (split; [assumption|]).
        -- now apply IHp.
        -- now apply IHo.
    + intros o l p s. rewrite opt_step by assumption. unfold opt_fuel. split.
      * intros (t & r & -> & Ht & H). right. split; [now exists (t ++ r)|].
        apply nested_paren; [assumption|]. apply Hfuel.
        destruct H as [[H1 H2]|[H1 H2]]; [left|right]; (split; [assumption|]).
        -- now apply IHp in H2.
        -- now apply IHo in H2.
      * intros [H|[[r ->] H]]; [easy|]. apply nested_paren_inv in H as (t & r' & -> & Ht & Hn).
        exists t, r'. split; [reflexivity|]. split; [assumption|].
        apply Hfuel in Hn as [[H1 H2]|[H1 H2]]; [left|right]; (split; [assumption|]).
        -- now apply IHp.
        -- now apply IHo.
Qed.
Lemma parameter_depth d o l s ix : ix < usize_max ->
  fst (parameter_d d (mkspan o l s) ix) = Bad BFuel <->
  d = 0%nat \/ (exists r, s = s_ "{" ++ r) /\ nested (S d) s.
Proof. rewrite at_nil. apply depth_iff. Qed.
Lemma optional_depth d o l s :
  optional_d d (mkspan o l s) = Bad BFuel <->
  d = 0%nat \/ (exists r, s = s_ "(" ++ r) /\ nested (S d) s.
Proof. rewrite at_nil. apply depth_iff. Qed.

(** The result does not depend on the depth once it suffices. *)
Lemma depth_mono : forall d,
  (forall i ix, fst (parameter_d d i ix) <> Bad BFuel -> parameter_d (S d) i ix = parameter_d d i ix) /\
  (forall i, optional_d d i <> Bad BFuel -> optional_d (S d) i = optional_d d i).
Proof.
  induction d as [|d [IHp IHo]]; [split; intros; now exfalso|].
  split.
  - intros i ix H. remember (S d) as D eqn:HD. cbn [parameter_d].
    assert (EQ : exists x, x = parameter_d D i ix) by eauto. destruct EQ as [x0 EQ].
    rewrite <- EQ in *. rewrite HD in EQ. cbn [parameter_d] in EQ. subst x0. rewrite <- ?HD in *.
    destruct (tag (s_ "{") i) as [i1 b|]; [|reflexivity].
    destruct (escaped_reserved_chars0 (take_while is_name) i1) as [i2 n|]; [|reflexivity].
    unfold map_err in *. destruct (tag (s_ "}") i2) as [i3 x|[]]; try reflexivity; cbn [fst] in H;
    ( destruct (iter_elements i2) as [|c r]; [reflexivity|];
      destruct (c =? c_ "{") eqn:E1;
      [ match goal with H : Bad (if_ok _ ?y ?n) <> _ |- _ =>
          assert (Hn : fst (parameter_d d i2 0) <> Bad BFuel);
          [ intros Hn; apply H; f_equal; apply if_ok_fuel; try (intros; apply fail_take_fuel);
            now apply (bind_closing_fuel is_name (s_ "}"))|] end;
        now rewrite (IHp i2 0 Hn)
      | destruct (c =? c_ "(") eqn:E2; [|reflexivity];
        match goal with H : Bad (if_ok _ ?y ?n) <> _ |- _ =>
          assert (Hn : optional_d d i2 <> Bad BFuel);
          [ intros Hn; apply H; f_equal; apply if_ok_fuel; try (intros; apply fail_take_fuel);
            unfold peek; now rewrite Hn|] end;
        unfold peek; now rewrite (IHo i2 Hn)]).
  - intros i H. remember (S d) as D eqn:HD. cbn [optional_d].
    assert (EQ : exists x, x = optional_d D i) by eauto. destruct EQ as [x0 EQ].
    rewrite <- EQ in *. rewrite HD in EQ. cbn [optional_d] in EQ. subst x0. rewrite <- ?HD in *.
    destruct (tag (s_ "(") i) as [i1 b|]; [|reflexivity].
    destruct (escaped_reserved_chars0 (take_while is_in_optional) i1) as [i2 n|]; [|reflexivity].
    unfold map_err in *. destruct (tag (s_ ")") i2) as [i3 x|[]]; try reflexivity;
    ( destruct (iter_elements i2) as [|c r]; [reflexivity|];
      destruct (c =? c_ "(") eqn:E1;
      [ match goal with H : Bad (if_ok _ ?y ?n) <> _ |- _ =>
          assert (Hn : optional_d d i2 <> Bad BFuel);
          [ intros Hn; apply H; f_equal; apply if_ok_fuel; try (intros; apply fail_take_fuel);
            now apply (bind_closing_fuel is_in_optional (s_ ")"))|] end;
        now rewrite (IHo i2 Hn)
      | destruct (c =? c_ "{") eqn:E2; [|reflexivity];
        match goal with H : Bad (if_ok _ ?y ?n) <> _ |- _ =>
          assert (Hn : fst (parameter_d d i2 0) <> Bad BFuel);
          [ intros Hn; apply H; f_equal; apply if_ok_fuel; try (intros; apply fail_take_fuel);
            unfold peek; now rewrite Hn|] end;
        unfold peek; now rewrite (IHp i2 0 Hn)]).
Qed.

(** Bounds. *)
Lemma openings_app x y : openings (x ++ y) = (openings x + openings y)%nat.
Proof. unfold openings. now rewrite filter_app, app_length. Qed.
Lemma nested_openings n s : nested n s -> (n <= openings s)%nat.
Proof.
  induction 1 as [|n t s _ _ IH|n t s _ _ IH]; [lia|..]; rewrite !openings_app.
  - change (openings (s_ "{")) with 1%nat. lia.
  - change (openings (s_ "(")) with 1%nat. lia.
Qed.
Lemma parameter_d_more d d' i ix : (d <= d')%nat -> fst (parameter_d d i ix) <> Bad BFuel ->
  parameter_d d' i ix = parameter_d d i ix.
Proof.
  intros H Hd. induction H as [|d' H IH]; [reflexivity|]. rewrite <- IH.
  apply depth_mono. now rewrite IH.
Qed.
Lemma optional_d_more d d' i : (d <= d')%nat -> optional_d d i <> Bad BFuel ->
  optional_d d' i = optional_d d i.
Proof.
  intros H Hd. induction H as [|d' H IH]; [reflexivity|]. rewrite <- IH.
  apply depth_mono. now rewrite IH.
Qed.
Lemma openings_length s : (openings s <= List.length s)%nat.
Proof.
  unfold openings. induction s as [|c s IH]; [constructor|]. cbn [filter List.length].
  destruct ((c =? c_ "{") || (c =? c_ "(")); cbn [List.length]; lia.
Qed.
Lemma parameter_bound i ix d : ix < usize_max -> (1 + openings (frag i) <= d)%nat ->
  parameter_d d i ix = parse_parameter i ix.
Proof.
  intros Hix Hd. assert (Hok : fst (parameter_d (1 + openings (frag i)) i ix) <> Bad BFuel).
  { destruct i as [o l s]. rewrite parameter_depth by assumption. intros [H|[_ H]]; [lia|].
    apply nested_openings in H. cbn [frag] in H. lia. }
  rewrite (parameter_d_more _ d i ix Hd Hok). unfold parse_parameter. symmetry.
  apply parameter_d_more; [|assumption]. pose proof (openings_length (frag i)). lia.
Qed.
Lemma optional_bound i d : (1 + openings (frag i) <= d)%nat ->
  optional_d d i = parse_optional i.
Proof.
  intros Hd. assert (Hok : optional_d (1 + openings (frag i)) i <> Bad BFuel).
  { destruct i as [o l s]. rewrite optional_depth. intros [H|[_ H]]; [lia|].
    apply nested_openings in H. cbn [frag] in H. lia. }
  rewrite (optional_d_more _ d i Hd Hok). unfold parse_optional. symmetry.
  apply optional_d_more; [|assumption]. pose proof (openings_length (frag i)). lia.
Qed.
Lemma braces_nested n m : (m <= n)%nat -> nested m (repeat (c_ "{") n).
Proof.
  revert m. induction n as [|n IH]; intros [|m] H; [constructor|lia|constructor|].
  apply (nested_brace m [] (repeat (c_ "{") n)); [constructor|]. apply IH. lia.
Qed.
Lemma unbounded_depth n o l ix : ix < usize_max ->
  fst (parameter_d n (mkspan o l (repeat (c_ "{") (S n))) ix) = Bad BFuel /\
  fst (parameter_d (S n) (mkspan o l (repeat (c_ "{") (S n))) ix)
    = Bad (BFailure (if Nat.eqb n 0 then UnfinishedParameter (mkspan o l (s_ "{"))
                     else UnescapedReservedCharacter (mkspan (o + 1) l (s_ "{")))).
Proof.
  intros Hix. split.
  - apply parameter_depth; [assumption|]. right. split; [now exists (repeat (c_ "{") n)|].
    now apply braces_nested.
  - assert (Hok : fst (parameter_d (S n) (mkspan o l (repeat (c_ "{") (S n))) ix) <> Bad BFuel).
    { rewrite parameter_depth by assumption. intros [H|[_ H]]; [lia|]. apply nested_openings in H.
      assert (Ho : forall k, openings (repeat (c_ "{") k) = k).
      { clear. induction k; [reflexivity|]. unfold openings in *. cbn in *. lia. }
      rewrite Ho in H. lia. }
    assert (Hle : (S n <= S (List.length (repeat (c_ "{") (S n))))%nat) by (rewrite repeat_length; lia).
    pose proof (parameter_d_more _ _ _ _ Hle Hok) as E.
    change (parameter_d (S (List.length (repeat (c_ "{") (S n)))) (mkspan o l (repeat (c_ "{") (S n))) ix)
      with (parse_parameter (mkspan o l (repeat (c_ "{") (S n))) ix) in E. rewrite <- E.
    destruct n as [|n].
    + cbn [Nat.eqb]. rewrite (proj2 (unfinished_parameter_iff o l _ ix ix Hix (mkspan o l (s_ "{")))); [reflexivity|].
      split; [reflexivity|]. exists []. repeat split. constructor.
    + cbn [Nat.eqb].
      rewrite (proj2 (unescaped_in_parameter_iff o l _ ix ix Hix (mkspan (o + 1) l (s_ "{")))); [reflexivity|].
      split; [reflexivity|]. exists [], (c_ "{"), (repeat (c_ "{") n). split; [constructor|].
      split; [reflexivity|]. split; [unfold span_at; cbn; f_equal; lia|]. right. left.
      split; [reflexivity|]. intros (m & t' & r' & _ & _ & E').
      assert (Hin : In (c_ "}") (repeat (c_ "{") n)).
      { rewrite E'. apply in_or_app. right. now left. }
      apply repeat_spec in Hin. easy.
Qed.
