(** nom's [escaped] for any parsers, and how [escaped0] differs. *)
From Verif Require Export ProofEscaped SpecNomEscaped.

Section Nom.
  Context {A B : Type} (N_ : parser A) (E_ : parser B) (normal escapable : str -> option (str * str)) (control : char).
  Hypothesis HN : reads_as N_ normal.
  Hypothesis HE : tries_as E_ escapable.
  Notation ntakes := (nom_takes normal escapable control).
  Notation gives := (nom_gives normal escapable control E_).
  Variables o l : N.

  Lemma normal_app s w r : normal s = Some (w, r) -> s = w ++ r.
  Proof. intros H. specialize (HN 0 0 [] s). rewrite H in HN. apply HN. Qed.
  Lemma escapable_app s w r : escapable s = Some (w, r) -> s = w ++ r.
  Proof. intros H. specialize (HE 0 0 [] s). rewrite H in HE. apply HE. Qed.
  Lemma ntakes_app s t r : ntakes s t r -> s = t ++ r.
  Proof.
    induction 1 as [s|s w r t q H _ _ IH|s w r t q _ _ H _ IH]; [reflexivity|..].
    - apply normal_app in H as ->. now rewrite IH, app_assoc.
    - apply escapable_app in H as ->. cbn. now rewrite IH, app_assoc.
  Qed.
  Lemma ntakes_trans s t r : ntakes s t r -> forall u q, ntakes r u q -> ntakes s (t ++ u) q.
  Proof.
    induction 1; intros u q' Hu; [assumption|..].
    - rewrite <- app_assoc. eapply nom_takes_normal; eauto.
    - cbn. rewrite <- app_assoc. eapply nom_takes_escaped; eauto.
  Qed.
  Lemma ntakes_takes s t r : ntakes s t r -> takes normal escapable control s t r.
  Proof.
    induction 1; [constructor|eapply takes_normal; eauto|eapply takes_escaped; eauto].
    intros w' r' H'. congruence.
  Qed.
  Lemma nom_loop_gives : forall fuel (t s : str),
    (List.length s <= fuel)%nat -> ntakes (t ++ s) t s ->
    gives o l (t ++ s) (nom_escaped_loop fuel N_ control E_ (at_ o l [] (t ++ s)) (at_ o l t s)).
  Proof.
    assert (D : forall t s, ntakes (t ++ s) t s -> s = [] -> gives o l (t ++ s) (whole (at_ o l [] (t ++ s)))).
    { intros t s H ->. rewrite whole_at. rewrite app_nil_r in *. apply nom_all. assumption. }
    induction fuel as [|fuel IH]; intros t s Hf Ht.
    - destruct s as [|c s]; [|cbn [List.length] in Hf; lia].
      cbn [nom_escaped_loop]. rewrite input_len_at. cbn [blen]. rewrite N.eqb_refl. now apply D.
    - cbn [nom_escaped_loop]. rewrite !input_len_at, blen_eqb_nil. destruct s as [|c s]; [now apply D|].
      rewrite iter_elements_at.
      pose proof (HN o l t (c :: s)) as HN'. change (span_at o l (t, c :: s)) with (at_ o l t (c :: s)) in HN'.
      destruct (normal (c :: s)) as [[w r]|] eqn:En.
      + destruct HN' as [Es [a ->]].
        change (span_at o l (t ++ w, r)) with (at_ o l (t ++ w) r). rewrite input_len_at, blen_eqb_nil.
        destruct w as [|e w].
        * cbn [app] in Es. subst r. rewrite app_nil_r, N.eqb_refl.
          pose proof (offset_at o l [] t (t ++ c :: s) (c :: s)) as Ho. cbn [app] in Ho. rewrite Ho, split_at by reflexivity.
          now apply (nom_empty _ _ _ _ _ _ _ t (c :: s) (c :: s)).
        * assert (Ht' : ntakes (t ++ c :: s) (t ++ e :: w) r).
          { eapply ntakes_trans; [exact Ht|]. rewrite <- (app_nil_r (e :: w)). eapply nom_takes_normal; eauto; [easy|constructor]. }
          replace (t ++ c :: s) with ((t ++ e :: w) ++ r) in * by (rewrite <- app_assoc; now rewrite Es).
          destruct r as [|d r]; [now apply D|].
          replace (blen (d :: r) =? blen (c :: s)) with false.
          -- apply IH; [|assumption].
             apply (f_equal (@List.length N)) in Es. rewrite app_length in Es. cbn [List.length] in *. clear - Hf Es. unfold str, char in *. lia.
          -- symmetry. apply N.eqb_neq. rewrite Es, blen_app. cbn [blen]. pose proof (len_utf8_pos e). lia.
      + destruct HN' as [e ->]. destruct (N.eqb_spec c control) as [->|Hc].
        * destruct s as [|d s].
          -- cbn [blen]. destruct (N.leb_spec (len_utf8 control + 0) (len_utf8 control)); [|lia].
             change (at_ o l [] (t ++ [control])) with (span_at o l ([], t ++ [control])). now apply (nom_end _ _ _ _ _ _ _ t).
          -- destruct (N.leb_spec (blen (control :: d :: s)) (len_utf8 control)) as [Hle|_].
             { pose proof (len_utf8_pos d). cbn [blen] in Hle. lia. }
             change (at_ o l t (control :: d :: s)) with (at_ o l t ([control] ++ d :: s)) at 1.
             rewrite take_from_at by (cbn [blen]; lia).
             pose proof (HE o l (t ++ [control]) (d :: s)) as HE'.
             destruct (escapable (d :: s)) as [[w r]|] eqn:Ee.
             ++ destruct HE' as [Es [a HE']]. change (span_at o l (t ++ [control], d :: s)) with (at_ o l (t ++ [control]) (d :: s)) in HE'.
                rewrite HE'. change (span_at o l ((t ++ [control]) ++ w, r)) with (at_ o l ((t ++ [control]) ++ w) r).
                rewrite input_len_at, blen_eqb_nil.
                assert (Ht' : ntakes (t ++ control :: d :: s) ((t ++ [control]) ++ w) r).
                { rewrite <- app_assoc. eapply ntakes_trans; [exact Ht|]. cbn [app].
                  rewrite <- (app_nil_r w) at 1. eapply nom_takes_escaped; eauto; [easy|constructor]. }
                replace (t ++ control :: d :: s) with (((t ++ [control]) ++ w) ++ r) in *
                  by (rewrite <- !app_assoc; cbn; now rewrite Es).
                destruct r as [|f r]; [now apply D|].
                apply IH; [|assumption].
                cbn [List.length] in *. apply (f_equal (@List.length N)) in Es. rewrite app_length in Es. cbn [List.length] in Es. clear - Hf Es. unfold str, char in *. lia.
             ++ change (at_ o l (t ++ [control]) (d :: s)) with (span_at o l (t ++ [control], d :: s)).
                destruct (E_ (span_at o l (t ++ [control], d :: s))) as [? ?|b] eqn:EE.
                { destruct HE' as [[e1 X]|[[e1 X]|X]]; pose proof (eq_trans (eq_sym X) EE) as Y; discriminate Y. }
                eapply nom_error; eauto. easy.
        * pose proof (offset_at o l [] t (t ++ c :: s) (c :: s)) as Ho. cbn [app] in Ho. rewrite Ho. clear Ho.
          assert (Hs : ~ starts_with_in [control] (c :: s)).
          { intros (c' & r & Hr & [<-|[]]). now injection Hr as -> _. }
          rewrite blen_eqb_nil. destruct t as [|d t].
          -- change (at_ o l [] ([] ++ c :: s)) with (span_at o l ([], c :: s)). now apply nom_nothing.
          -- rewrite split_at by reflexivity. now apply nom_text.
  Qed.
  Lemma nom_escaped_gives s : gives o l s (nom_escaped N_ control E_ (mkspan o l s)).
  Proof.
    rewrite at_nil. unfold nom_escaped. rewrite frag_at. apply (nom_loop_gives _ [] s); [lia|constructor].
  Qed.

  (** The specification allows one outcome: where [nom_takes] must stop. *)
  Definition stuck (r : str) : Prop :=
    (forall w q, normal r = Some (w, q) -> w = []) /\
    (forall u, r = control :: u -> normal r = None -> u = [] \/ escapable u = None).
  Lemma normal_nil w r : normal [] = Some (w, r) -> w = [].
  Proof. intros H. apply normal_app in H. now destruct w. Qed.
  Lemma ntakes_unique s t r : ntakes s t r -> stuck r -> forall t' r', ntakes s t' r' -> stuck r' -> t = t' /\ r = r'.
  Proof.
    induction 1 as [s|s w r t q H Hw _ IH|s w r t q Hno Hs H _ IH]; intros H1 t' r' H' H1'.
    - destruct H' as [s|s w r t q H Hw _|s w r t q Hno Hs H _]; [auto| |].
      + now apply (proj1 H1) in H.
      + destruct (proj2 H1 s eq_refl Hno); congruence.
    - inversion H' as [s0|s0 w0 r0 t0 q0 H0 Hw0 Ht0|s0 w0 r0 t0 q0 Hno0 Hs0 H0 Ht0]; subst.
      + now apply (proj1 H1') in H.
      + rewrite H in H0. injection H0 as <- <-. destruct (IH H1 _ _ Ht0 H1') as [-> ->]. auto.
      + congruence.
    - inversion H' as [s0|s0 w0 r0 t0 q0 H0 Hw0 Ht0|s0 w0 r0 t0 q0 Hno0 Hs0 H0 Ht0]; subst.
      + destruct (proj2 H1' s eq_refl Hno); congruence.
      + congruence.
      + rewrite H in H0. injection H0 as <- <-. destruct (IH H1 _ _ Ht0 H1') as [-> ->]. auto.
  Qed.
  Lemma nom_gives_unique s x y : gives o l s x -> gives o l s y -> x = y.
  Proof.
    assert (F : forall x, gives o l s x -> exists t r, ntakes s t r /\ stuck r /\
      x = match r with
          | [] => Ok (span_at o l (t, r)) (span_at o l ([], t))
          | c :: u =>
              match normal r with
              | Some _ => Ok (span_at o l (t, r)) (span_at o l ([], t))
              | None => if c =? control
                        then match u with [] => recoverable (span_at o l ([], s)) KEscaped
                             | _ => match E_ (span_at o l (t ++ [control], u)) with Bad b => Bad b | Ok _ _ => Bad BPanic end end
                        else match t with [] => recoverable (span_at o l ([], s)) KEscaped
                             | _ => Ok (span_at o l (t, r)) (span_at o l ([], t)) end
              end
          end).
    { clear x y. intros x H. destruct H as [t Ht|t r q Ht Hr Hn|t r Ht Hnt Hr Hn Hc|Hs Hn Hc|t Ht Hn|t r b Ht Hn Hr He HE'].
      - exists t, []. split; [assumption|]. split; [|reflexivity]. split; [intros w q; apply normal_nil|easy].
      - exists t, r. split; [assumption|]. split; [split; [congruence|congruence]|]. destruct r; [easy|]. now rewrite Hn.
      - exists t, r. apply not_starts in Hc. split; [assumption|]. split.
        + split; [congruence|]. intros u ->. easy.
        + destruct r as [|c r]; [easy|]. rewrite Hn. destruct (N.eqb_spec c control); [easy|]. now destruct t.
      - exists [], s. apply not_starts in Hc. split; [constructor|]. split.
        + split; [congruence|]. intros u ->. easy.
        + destruct s as [|c s]; [easy|]. rewrite Hn. now destruct (N.eqb_spec c control).
      - exists t, [control]. split; [assumption|]. split.
        + split; [congruence|]. intros u H _. left. now injection H.
        + now rewrite Hn, N.eqb_refl.
      - exists t, (control :: r). split; [assumption|]. split.
        + split; [congruence|]. intros u H _. right. now injection H as <-.
        + rewrite Hn, N.eqb_refl, HE'. now destruct r. }
    intros Hx Hy. destruct (F _ Hx) as (t & r & H1 & H2 & ->). destruct (F _ Hy) as (t' & r' & H1' & H2' & ->).
    destruct (ntakes_unique _ _ _ H1 H2 _ _ H1' H2') as [<- <-]. reflexivity.
  Qed.
  Lemma nom_escaped_exact s out : nom_escaped N_ control E_ (mkspan o l s) = out <-> gives o l s out.
  Proof.
    split; [intros <-; apply nom_escaped_gives|]. intros H. eapply nom_gives_unique; [apply nom_escaped_gives|exact H].
  Qed.

  (** Against [escaped0]. *)
  Lemma nom_ok s rest out : nom_escaped N_ control E_ (mkspan o l s) = Ok rest out ->
    exists t r, s = t ++ r /\ rest = span_at o l (t, r) /\ out = span_at o l ([], t) /\
    (~ starts_with_in [control] r -> escaped0 N_ control E_ (mkspan o l s) = Ok rest out) /\
    (starts_with_in [control] r -> (exists q, normal r = Some ([], q)) /\
       match escaped0 N_ control E_ rest with
       | Ok rest' out' => escaped0 N_ control E_ (mkspan o l s) = Ok rest' (span_at o l ([], t ++ frag out'))
       | Bad _ => exists at_, escaped0 N_ control E_ (mkspan o l s) = recoverable at_ KEscaped
       end).
  Proof.
    intros H. apply nom_escaped_exact in H. remember (Ok rest out) as x eqn:Ex.
    assert (K : forall t r q, ntakes s t r -> normal r = Some ([], q) \/ (~ starts_with_in [control] r /\ no_normal normal r) ->
      exists t0 r0, s = t0 ++ r0 /\ span_at o l (t, r) = span_at o l (t0, r0) /\ span_at o l ([], t) = span_at o l ([], t0) /\
    (~ starts_with_in [control] r0 -> escaped0 N_ control E_ (mkspan o l s) = Ok (span_at o l (t, r)) (span_at o l ([], t))) /\
    (starts_with_in [control] r0 -> (exists q0, normal r0 = Some ([], q0)) /\
       match escaped0 N_ control E_ (span_at o l (t, r)) with
       | Ok rest' out' => escaped0 N_ control E_ (mkspan o l s) = Ok rest' (span_at o l ([], t0 ++ frag out'))
       | Bad _ => exists at_, escaped0 N_ control E_ (mkspan o l s) = recoverable at_ KEscaped
       end)).
    { intros t r q Ht Hr. exists t, r. split; [now apply ntakes_app|]. split; [reflexivity|]. split; [reflexivity|].
      pose proof (ntakes_takes _ _ _ Ht) as Ht'. split.
      - intros Hc. apply (escaped0_exact _ _ _ _ _ HN HE). apply escaped_text; [assumption| |assumption].
        destruct Hr as [Hr|[_ Hr]]; [intros w q' Hw; congruence|assumption].
      - intros Hc. destruct Hr as [Hr|[Hr _]]; [|easy]. split; [eauto|].
        unfold span_at at 1. cbn [fst snd].
        destruct (escaped0 N_ control E_ (mkspan (o + blen t) (l + newlines t) r)) as [rest' out'|b] eqn:E0.
        + apply (escaped0_exact _ _ _ _ _ HN HE) in E0. apply (escaped0_exact _ _ _ _ _ HN HE).
          remember (Ok rest' out') as y eqn:Ey. destruct E0 as [t1 r1 H1 H2 H3| |]; try discriminate.
          injection Ey as <- <-.
          replace (span_at (o + blen t) (l + newlines t) (t1, r1)) with (span_at o l (t ++ t1, r1)).
          * cbn [frag span_at fst snd]. apply escaped_text; [|assumption|assumption].
            eapply takes_trans; eauto.
          * unfold span_at. cbn [fst snd]. rewrite blen_app, newlines_app, !N.add_assoc. reflexivity.
        + apply (escaped0_exact _ _ _ _ _ HN HE) in E0.
          remember (Bad b) as y eqn:Ey. destruct E0 as [|t1 H1 H2|t1 r1 H1 H2 H3 H4]; [discriminate|..].
          * eexists. apply (escaped0_exact _ _ _ _ _ HN HE). apply (escaped_end _ _ _ _ _ _ (t ++ t1)); [|assumption]. eapply takes_trans; eauto.
          * eexists. apply (escaped0_exact _ _ _ _ _ HN HE). apply (escaped_other _ _ _ _ _ _ (t ++ t1) r1); [|assumption|assumption|assumption]. eapply takes_trans; eauto. }
    destruct H as [t Ht|t r q Ht Hr Hn|t r Ht Hnt Hr Hn Hc|Hs Hn Hc|t Ht Hn|t r b Ht Hn Hr He HE']; try discriminate; injection Ex as <- <-.
    - apply (K t [] [] Ht). right. split; [intros (? & ? & ? & _); easy|]. intros w q. apply normal_nil.
    - apply (K t r q Ht). auto.
    - apply (K t r [] Ht). right. split; [assumption|]. intros w q. congruence.
  Qed.
  Lemma nom_bad s b : nom_escaped N_ control E_ (mkspan o l s) = Bad b ->
    (s <> [] /\ normal s = None /\ ~ starts_with_in [control] s /\
     @Bad span b = recoverable (span_at o l ([], s)) KEscaped /\
     escaped0 N_ control E_ (mkspan o l s) = Ok (span_at o l ([], s)) (span_at o l ([], []))) \/
    (exists t, s = t ++ [control] /\ normal [control] = None /\
     @Bad span b = recoverable (span_at o l ([], s)) KEscaped /\
     escaped0 N_ control E_ (mkspan o l s) = Bad b) \/
    (exists t r, s = t ++ control :: r /\ r <> [] /\ normal (control :: r) = None /\ escapable r = None /\
     E_ (span_at o l (t ++ [control], r)) = Bad b /\
     escaped0 N_ control E_ (mkspan o l s) = recoverable (span_at o l (t, control :: r)) KEscaped).
  Proof.
    intros H. apply nom_escaped_exact in H. remember (Bad b) as x eqn:Ex.
    destruct H as [t Ht|t r q Ht Hr Hn|t r Ht Hnt Hr Hn Hc|Hs Hn Hc|t Ht Hn|t r b' Ht Hn Hr He HE']; try discriminate.
    - left. split; [assumption|]. split; [assumption|]. split; [assumption|]. split; [first [reflexivity | now rewrite <- Ex]|]. apply (escaped0_exact _ _ _ _ _ HN HE).
      apply escaped_text; [constructor|intros w q; congruence|assumption].
    - right. left. exists t. split; [now apply ntakes_app|]. split; [assumption|]. split; [first [reflexivity | now rewrite <- Ex]|]. try rewrite <- Ex.
      apply (escaped0_exact _ _ _ _ _ HN HE). apply (escaped_end _ _ _ _ _ _ t); [now apply ntakes_takes|]. intros w q. congruence.
    - right. right. exists t, r. injection Ex as <-. split; [now apply ntakes_app|]. repeat (split; [assumption|]).
      apply (escaped0_exact _ _ _ _ _ HN HE). apply (escaped_other _ _ _ _ _ _ t r); [now apply ntakes_takes| |assumption|assumption]. intros w q. congruence.
  Qed.
  (** Where [normal] never takes the empty text. *)
  Lemma nom_strict : (forall s w r, normal s = Some (w, r) -> w <> []) -> forall s rest out,
    (nom_escaped N_ control E_ (mkspan o l s) = Ok rest out -> escaped0 N_ control E_ (mkspan o l s) = Ok rest out) /\
    (escaped0 N_ control E_ (mkspan o l s) = Ok rest out ->
     nom_escaped N_ control E_ (mkspan o l s) = Ok rest out \/ (s <> [] /\ rest = mkspan o l s /\ out = mkspan o l [])).
  Proof.
    intros Hne s rest out.
    assert (F : nom_escaped N_ control E_ (mkspan o l s) = Ok rest out -> escaped0 N_ control E_ (mkspan o l s) = Ok rest out).
    { intros H. destruct (nom_ok _ _ _ H) as (t & r & Hs & -> & -> & H1 & H2). apply H1.
      intros Hc. destruct (H2 Hc) as [[q Hq] _]. now apply Hne in Hq. }
    split; [exact F|]. intros H0. destruct (nom_escaped N_ control E_ (mkspan o l s)) as [rest' out'|b] eqn:H.
    - left. destruct (nom_ok _ _ _ H) as (t & r & Hs & -> & -> & H1 & H2). rewrite <- H0. symmetry. apply H1.
      intros Hc. destruct (H2 Hc) as [[q Hq] _]. now apply Hne in Hq.
    - right. destruct (nom_bad _ _ H) as [(Hs & _ & _ & _ & E)|[(t & _ & _ & _ & E)|(t & r & _ & _ & _ & _ & _ & E)]].
      + split; [assumption|]. rewrite E in H0. injection H0 as <- <-. unfold span_at. cbn [fst snd blen newlines].
        rewrite !N.add_0_r. auto.
      + congruence.
      + rewrite E in H0. discriminate.
  Qed.
End Nom.

Lemma nom_characters (f : char -> bool) (control : char) (cs : str) (o l : N) (s : str) rest out :
  (nom_escaped (take_while1 f) control (one_of cs) (mkspan o l s) = Ok rest out ->
   escaped0 (take_while f) control (one_of cs) (mkspan o l s) = Ok rest out) /\
  (escaped0 (take_while f) control (one_of cs) (mkspan o l s) = Ok rest out ->
   nom_escaped (take_while1 f) control (one_of cs) (mkspan o l s) = Ok rest out \/
   (s <> [] /\ rest = mkspan o l s /\ out = mkspan o l [])).
Proof.
  rewrite (proj1 (escaped0_characters f control cs o l s)). destruct (parsers_read f cs) as (_ & H1 & _ & HE).
  apply (nom_strict _ _ _ _ control H1 HE). intros s' w r. unfold longest1.
  destruct (while f s') as [[|c w'] r']; intros H; [discriminate|]. now injection H as <- _.
Qed.
