(** [escaped0] for any parsers. *)
From Verif Require Export ProofExact SpecEscaped.

Lemma while_eq f s : while f s = span_while f s.
Proof. induction s as [|c s IH]; [reflexivity|]. cbn. now rewrite IH. Qed.
Lemma reads_tries {A} (P : parser A) g : reads_as P g -> tries_as P g.
Proof. intros H o l p s. specialize (H o l p s). destruct (g s) as [[w r]|]; auto. Qed.
Lemma take_while_reads f : reads_as (take_while f) (longest0 f).
Proof.
  intros o l p s. unfold longest0. rewrite while_eq. change (span_at o l (p, s)) with (at_ o l p s).
  rewrite take_while_at. destruct (span_while f s) as [w r] eqn:E.
  apply span_while_app in E as ->. split; [reflexivity|]. eexists. reflexivity.
Qed.
Lemma take_while1_reads f : reads_as (take_while1 f) (longest1 f).
Proof.
  intros o l p s. unfold longest1. rewrite while_eq. change (span_at o l (p, s)) with (at_ o l p s).
  rewrite take_while1_at. destruct (span_while f s) as [w r] eqn:E.
  apply span_while_app in E as ->. destruct w as [|c w]; [eauto|].
  split; [reflexivity|]. eexists. reflexivity.
Qed.
Lemma one_of_reads cs : reads_as (one_of cs) (any_of cs).
Proof.
  intros o l p s. unfold any_of. change (span_at o l (p, s)) with (at_ o l p s).
  destruct s as [|c s].
  - unfold one_of. rewrite iter_elements_at. eauto.
  - rewrite one_of_at. destruct (in_dec N.eq_dec c cs) as [H|H].
    + apply contains_In in H. rewrite H. split; [reflexivity|]. eexists. reflexivity.
    + apply contains_false in H. rewrite H. eauto.
Qed.

Section Loop.
  Context {A B : Type} (N_ : parser A) (E_ : parser B) (normal escapable : str -> option (str * str)) (control : char).
  Hypothesis HN : reads_as N_ normal.
  Hypothesis HE : tries_as E_ escapable.
  Notation takes := (takes normal escapable control).
  Notation no_normal := (no_normal normal).
  Variables o l : N.

  Lemma takes_app s t r : takes s t r -> s = t ++ r.
  Proof.
    induction 1 as [s|s w r t q H _ _ IH|s w r t q _ _ H _ IH]; [reflexivity|..].
    - specialize (HN 0 0 [] s). rewrite H in HN. destruct HN as [-> _]. now rewrite IH, app_assoc.
    - specialize (HE 0 0 [] s). rewrite H in HE. destruct HE as [-> _]. cbn. now rewrite IH, app_assoc.
  Qed.
  Lemma takes_trans s t r : takes s t r -> forall u q, takes r u q -> takes s (t ++ u) q.
  Proof.
    induction 1; intros u q' Hu; [assumption|..].
    - rewrite <- app_assoc. eapply takes_normal; eauto.
    - cbn. rewrite <- app_assoc. eapply takes_escaped; eauto.
  Qed.
  Lemma escaped0_loop_gives : forall fuel (t s : str) (cn : bool),
    (2 * List.length s <= fuel + (if cn then 1 else 0))%nat ->
    (cn = true -> no_normal s) -> takes (t ++ s) t s ->
    escaped_gives normal escapable control o l (t ++ s)
      (escaped0_loop fuel N_ control E_ (at_ o l [] (t ++ s)) (at_ o l t s) cn).
  Proof.
    assert (W : forall x y : str, y = [] -> whole (at_ o l [] (x ++ y)) = Ok (at_ o l (x ++ y) []) (at_ o l [] (x ++ y))).
    { intros x y ->. rewrite whole_at. reflexivity. }
    assert (NO : no_normal []).
    { intros w r H. specialize (HN 0 0 [] []). rewrite H in HN. destruct HN as [HN' _]. now destruct w. }
    assert (D : forall t s, takes (t ++ s) t s -> s = [] -> escaped_gives normal escapable control o l (t ++ s) (whole (at_ o l [] (t ++ s)))).
    { intros t s H ->. rewrite W by reflexivity. rewrite app_nil_r in *. apply escaped_text; [assumption|assumption|].
      intros (c & r & Hc & _). easy. }
    induction fuel as [|fuel IH]; intros t s cn Hf Hcn Ht.
    - destruct s as [|c s]; [|cbn [List.length] in Hf; destruct cn; lia].
      cbn [escaped0_loop]. rewrite input_len_at. cbn [blen]. rewrite N.eqb_refl. now apply D.
    - cbn [escaped0_loop]. rewrite !input_len_at, blen_eqb_nil. destruct s as [|c s]; [now apply D|].
      rewrite iter_elements_at.
      match goal with |- escaped_gives _ _ _ _ _ _ (match N_ _ with Ok _ _ => if cn then ?e else _ | _ => _ end) => set (escape := e) end.
      assert (X : no_normal (c :: s) -> escaped_gives normal escapable control o l (t ++ c :: s) escape).
      { intros Hno. unfold escape. destruct (N.eqb_spec c control) as [->|Hc].
        - destruct s as [|d s].
          + cbn [blen]. destruct (N.leb_spec (len_utf8 control + 0) (len_utf8 control)); [|lia].
            change (at_ o l [] (t ++ [control])) with (span_at o l ([], t ++ [control])). now apply (escaped_end _ _ _ _ _ _ t).
          + destruct (N.leb_spec (blen (control :: d :: s)) (len_utf8 control)) as [Hle|_].
            { pose proof (len_utf8_pos d). cbn [blen] in Hle. lia. }
            change (at_ o l t (control :: d :: s)) with (at_ o l t ([control] ++ d :: s)) at 1.
            rewrite take_from_at by (cbn [blen]; lia).
            pose proof (HE o l (t ++ [control]) (d :: s)) as HE'. change (span_at o l (t ++ [control], d :: s)) with (at_ o l (t ++ [control]) (d :: s)) in HE'.
            destruct (escapable (d :: s)) as [[w r]|] eqn:Ee.
            * destruct HE' as [Es [a ->]]. change (span_at o l ((t ++ [control]) ++ w, r)) with (at_ o l ((t ++ [control]) ++ w) r).
              rewrite input_len_at, blen_eqb_nil.
              assert (Ht' : takes (t ++ control :: d :: s) ((t ++ [control]) ++ w) r).
              { rewrite <- app_assoc. eapply takes_trans; [exact Ht|]. cbn [app].
                rewrite <- (app_nil_r w) at 1. eapply takes_escaped; eauto; [easy|constructor]. }
              replace (t ++ control :: d :: s) with (((t ++ [control]) ++ w) ++ r) in *
                by (rewrite <- !app_assoc; cbn; now rewrite Es).
              destruct r as [|e r]; [now apply D|].
              apply IH; [|easy|assumption].
              cbn [List.length] in *. apply (f_equal (@List.length N)) in Es. rewrite app_length in Es. cbn [List.length] in Es. clear - Hf Es. unfold str, char in *. destruct cn; lia.
            * assert (Hres : match E_ (at_ o l (t ++ [control]) (d :: s)) with
                             | Ok _ _ | Bad BPanic | Bad BFuel => False | _ => True end).
              { destruct HE' as [[e ->]|[[e ->]| ->]]; exact Logic.I. }
              assert (Hg : escaped_gives normal escapable control o l (t ++ control :: d :: s)
                             (recoverable (span_at o l (t, control :: d :: s)) KEscaped)) by (now apply escaped_other).
              destruct (E_ (at_ o l (t ++ [control]) (d :: s))) as [? ?|[]]; easy.
        - pose proof (offset_at o l [] t (t ++ c :: s) (c :: s)) as Ho. cbn [app] in Ho. rewrite Ho. clear Ho. rewrite split_at by reflexivity. apply escaped_text; [assumption|assumption|].
          intros (c' & r & Hr & [<-|[]]). now injection Hr as -> _. }
      pose proof (HN o l t (c :: s)) as HN'. change (span_at o l (t, c :: s)) with (at_ o l t (c :: s)) in HN'.
      destruct (normal (c :: s)) as [[w r]|] eqn:En.
      + destruct HN' as [Es [a ->]]. destruct cn; [now apply X, Hcn|].
        change (span_at o l (t ++ w, r)) with (at_ o l (t ++ w) r). rewrite input_len_at, blen_eqb_nil.
        destruct w as [|e w].
        * cbn [app] in Es. subst r. rewrite app_nil_r, N.eqb_refl. apply IH; [lia| |assumption].
          intros _ w' r' H. congruence.
        * assert (Ht' : takes (t ++ c :: s) (t ++ e :: w) r).
          { eapply takes_trans; [exact Ht|]. rewrite <- (app_nil_r (e :: w)). eapply takes_normal; eauto; [easy|constructor]. }
          replace (t ++ c :: s) with ((t ++ e :: w) ++ r) in * by (rewrite <- app_assoc; now rewrite Es).
          destruct r as [|d r]; [now apply D|].
          replace (blen (d :: r) =? blen (c :: s)) with false.
          -- apply IH; [|easy|assumption].
             apply (f_equal (@List.length N)) in Es. rewrite app_length in Es. cbn [List.length] in *. clear - Hf Es. unfold str, char in *. lia.
          -- symmetry. apply N.eqb_neq. rewrite Es, blen_app. cbn [blen]. pose proof (len_utf8_pos e). lia.
      + destruct HN' as [e ->]. apply X. congruence.
  Qed.
  Lemma escaped0_gives s : escaped_gives normal escapable control o l s (escaped0 N_ control E_ (mkspan o l s)).
  Proof.
    rewrite at_nil. unfold escaped0. rewrite frag_at. apply (escaped0_loop_gives _ [] s false); [lia|easy|constructor].
  Qed.

  (** The specification allows one outcome. *)
  Lemma takes_unique s t r : takes s t r -> no_normal r -> (forall u, r = control :: u -> u = [] \/ escapable u = None) ->
    forall t' r', takes s t' r' -> no_normal r' -> (forall u, r' = control :: u -> u = [] \/ escapable u = None) -> t = t' /\ r = r'.
  Proof.
    induction 1 as [s|s w r t q H Hw _ IH|s w r t q Hno Hs H _ IH]; intros H1 H2 t' r' H' H1' H2'.
    - destruct H' as [s|s w r t q H Hw _|s w r t q Hno Hs H _]; [auto| |].
      + now apply H1 in H.
      + destruct (H2 s eq_refl); congruence.
    - inversion H' as [s0|s0 w0 r0 t0 q0 H0 Hw0 Ht0|s0 w0 r0 t0 q0 Hno0 Hs0 H0 Ht0]; subst.
      + now apply H1' in H.
      + rewrite H in H0. injection H0 as <- <-. destruct (IH H1 H2 _ _ Ht0 H1' H2') as [-> ->]. auto.
      + now apply Hno0 in H.
    - inversion H' as [s0|s0 w0 r0 t0 q0 H0 Hw0 Ht0|s0 w0 r0 t0 q0 Hno0 Hs0 H0 Ht0]; subst.
      + destruct (H2' s eq_refl); congruence.
      + now apply Hno in H0.
      + rewrite H in H0. injection H0 as <- <-. destruct (IH H1 H2 _ _ Ht0 H1' H2') as [-> ->]. auto.
  Qed.
  Lemma escaped_gives_unique s x y :
    escaped_gives normal escapable control o l s x -> escaped_gives normal escapable control o l s y -> x = y.
  Proof.
    assert (F : forall s x, escaped_gives normal escapable control o l s x -> exists t r, takes s t r /\ no_normal r /\
      (forall u, r = control :: u -> u = [] \/ escapable u = None) /\
      x = match r with
          | c :: u => if c =? control then match u with [] => recoverable (span_at o l ([], s)) KEscaped
                                             | _ => recoverable (span_at o l (t, r)) KEscaped end
                      else Ok (span_at o l (t, r)) (span_at o l ([], t))
          | [] => Ok (span_at o l (t, r)) (span_at o l ([], t))
          end).
    { clear s x y. intros s x H. destruct H as [t r Ht Hno Hc|t Ht Hno|t r Ht Hno Hr He].
      - exists t, r. apply not_starts in Hc. split; [assumption|]. split; [assumption|]. split.
        + intros u ->. easy.
        + destruct r as [|c r]; [reflexivity|]. now destruct (N.eqb_spec c control).
      - exists t, [control]. rewrite N.eqb_refl. repeat split; auto. intros u H. left. now injection H.
      - exists t, (control :: r). rewrite N.eqb_refl. repeat split; auto.
        + intros u H. right. now injection H as <-.
        + now destruct r. }
    intros Hx Hy. destruct (F _ _ Hx) as (t & r & H1 & H2 & H3 & ->). destruct (F _ _ Hy) as (t' & r' & H1' & H2' & H3' & ->).
    destruct (takes_unique _ _ _ H1 H2 H3 _ _ H1' H2' H3') as [<- <-]. reflexivity.
  Qed.
  Lemma escaped0_exact s out : escaped0 N_ control E_ (mkspan o l s) = out <-> escaped_gives normal escapable control o l s out.
  Proof.
    split; [intros <-; apply escaped0_gives|]. intros H. eapply escaped_gives_unique; [apply escaped0_gives|exact H].
  Qed.
End Loop.

Lemma parsers_read (f : char -> bool) (cs : str) :
  reads_as (take_while f) (longest0 f) /\ reads_as (take_while1 f) (longest1 f) /\
  reads_as (one_of cs) (any_of cs) /\ tries_as (one_of cs) (any_of cs).
Proof.
  split; [apply take_while_reads|]. split; [apply take_while1_reads|]. split; [apply one_of_reads|].
  apply reads_tries, one_of_reads.
Qed.

Section Characters.
  Variables (f : char -> bool) (control : char) (cs : str).
  Notation takes0 := (takes (longest0 f) (any_of cs) control).
  Notation takes1 := (takes (longest1 f) (any_of cs) control).
  Lemma no_normal0 s : no_normal (longest0 f) s <-> match s with [] => True | c :: _ => f c = false end.
  Proof.
    unfold no_normal, longest0. destruct s as [|c s]; cbn.
    - split; [easy|]. intros _ w r H. now injection H as <- _.
    - destruct (while f s) as [w r] eqn:E. destruct (f c).
      + split; [|easy]. intros H. now specialize (H (c :: w) r eq_refl).
      + split; [easy|]. intros _ w' r' H. now injection H as <- _.
  Qed.
  Lemma no_normal1 s : no_normal (longest1 f) s <-> match s with [] => True | c :: _ => f c = false end.
  Proof.
    unfold no_normal, longest1. destruct s as [|c s]; cbn.
    - split; [easy|]. congruence.
    - destruct (while f s) as [w r] eqn:E. destruct (f c).
      + split; [|easy]. intros H. now specialize (H (c :: w) r eq_refl).
      + split; [easy|]. congruence.
  Qed.
  Lemma no_normal_same s : no_normal (longest0 f) s <-> no_normal (longest1 f) s.
  Proof. now rewrite no_normal0, no_normal1. Qed.
  Lemma longest_same s w r : w <> [] -> longest0 f s = Some (w, r) <-> longest1 f s = Some (w, r).
  Proof.
    intros Hw. unfold longest0, longest1. destruct (while f s) as [[|c w'] r']; split; intros H; try congruence.
  Qed.
  Lemma takes_same s t r : takes0 s t r <-> takes1 s t r.
  Proof.
    split; induction 1 as [s|s w r t q H Hw _ IH|s w r t q Hno Hs H _ IH]; try constructor.
    - eapply takes_normal; [|assumption|eassumption]. now apply longest_same.
    - eapply takes_escaped; [|assumption|eassumption|assumption]. now apply no_normal_same.
    - eapply takes_normal; [|assumption|eassumption]. now apply longest_same.
    - eapply takes_escaped; [|assumption|eassumption|assumption]. now apply no_normal_same.
  Qed.
  Lemma while_spec s w r : while f s = (w, r) -> s = w ++ r /\ Forall (fun c => f c = true) w.
  Proof.
    revert w r. induction s as [|c s IH]; cbn; intros w r H; [injection H as <- <-; auto|].
    destruct (f c) eqn:Ec.
    - destruct (while f s) as [w' r']. injection H as <- <-. destruct (IH _ _ eq_refl) as [-> HF]. auto.
    - injection H as <- <-. auto.
  Qed.
  Lemma while_stop s w c r : while f s = (w, c :: r) -> f c = false.
  Proof.
    revert w. induction s as [|d s IH]; cbn; intros w H; [easy|].
    destruct (f d) eqn:Ed.
    - destruct (while f s) as [w' r']. injection H as <- ->. eauto.
    - now injection H as <- <- <-.
  Qed.
  Lemma content_plain_app w t : Forall (fun c => f c = true) w -> escaped_content f control cs t -> escaped_content f control cs (w ++ t).
  Proof. induction 1; [easy|]. intros Ht. cbn. constructor; auto. Qed.
  Lemma takes_content s t r : takes0 s t r -> s = t ++ r /\ escaped_content f control cs t.
  Proof.
    induction 1 as [s|s w r t q H Hw _ [IH1 IH2]|s w r t q Hno Hs H _ [IH1 IH2]].
    - split; [reflexivity|constructor].
    - injection H as H. apply while_spec in H as [-> HF]. subst r. split; [apply app_assoc|]. now apply content_plain_app.
    - destruct s as [|c s]; [easy|]. cbn in H. destruct (in_dec N.eq_dec c cs); [|easy]. injection H as <- <-.
      subst s. split; [reflexivity|]. apply no_normal0 in Hno. now constructor.
  Qed.
  (** The first characters of [f], then the rest. *)
  Lemma while_content w t r : Forall (fun c => f c = true) w ->
    match t ++ r with [] => True | c :: _ => f c = false end -> while f (w ++ t ++ r) = (w, t ++ r).
  Proof.
    induction 1 as [|c w Hc _ IH]; cbn; intros H.
    - destruct (t ++ r) as [|c s]; [reflexivity|]. cbn. now rewrite H.
    - now rewrite Hc, IH.
  Qed.
  Lemma content_takes t : escaped_content f control cs t -> forall w r,
    Forall (fun c => f c = true) w -> match r with [] => True | c :: _ => f c = false end -> takes0 (w ++ t ++ r) (w ++ t) r.
  Proof.
    assert (Q : forall w t r, Forall (fun c => f c = true) w -> match t ++ r with [] => True | c :: _ => f c = false end ->
      takes0 (t ++ r) t r -> takes0 (w ++ t ++ r) (w ++ t) r).
    { intros w t' r Hw Hr Ht. destruct w as [|c w]; [exact Ht|]. eapply takes_normal; [|easy|exact Ht].
      unfold longest0. now rewrite while_content. }
    induction 1 as [|c s Hc Hs IH|c s Hc Hi Hs IH]; intros w r Hw Hr.
    - apply Q; [assumption|assumption|]. constructor.
    - replace (w ++ (c :: s) ++ r) with ((w ++ [c]) ++ s ++ r) by now rewrite <- app_assoc.
      replace (w ++ c :: s) with ((w ++ [c]) ++ s) by now rewrite <- app_assoc.
      apply IH; [|assumption]. apply Forall_app. auto.
    - apply Q; [assumption|exact Hc|]. cbn [app].
      change (control :: c :: s) with (control :: [c] ++ s). eapply takes_escaped; [now apply no_normal0|easy| |apply (IH [] r); auto].
      cbn. now destruct (in_dec N.eq_dec c cs).
  Qed.
  Lemma escaped_gives_same o l s out :
    escaped_gives (longest0 f) (any_of cs) control o l s out <-> escaped_gives (longest1 f) (any_of cs) control o l s out.
  Proof.
    split; intros [t r Ht Hno Hc|t Ht Hno|t r Ht Hno Hr He].
    - apply escaped_text; [now apply takes_same|now apply no_normal_same|assumption].
    - apply (escaped_end _ _ _ _ _ _ t); [now apply takes_same|now apply no_normal_same].
    - apply escaped_other; [now apply takes_same|now apply no_normal_same|assumption|assumption].
    - apply escaped_text; [now apply takes_same|now apply no_normal_same|assumption].
    - apply (escaped_end _ _ _ _ _ _ t); [now apply takes_same|now apply no_normal_same].
    - apply escaped_other; [now apply takes_same|now apply no_normal_same|assumption|assumption].
  Qed.
  Lemma escaped0_characters o l s :
    escaped0 (take_while f) control (one_of cs) (mkspan o l s) = escaped0 (take_while1 f) control (one_of cs) (mkspan o l s) /\
    forall t r : str,
    escaped0 (take_while f) control (one_of cs) (mkspan o l s) = Ok (span_at o l (t, r)) (span_at o l ([], t)) <->
    s = t ++ r /\ escaped_content f control cs t /\
    match r with [] => True | c :: _ => f c = false /\ c <> control end.
  Proof.
    destruct (parsers_read f cs) as (H0 & H1 & _ & HE). split.
    - apply (escaped0_exact _ _ _ _ control H0 HE). apply escaped_gives_same.
      now apply (escaped0_exact _ _ _ _ control H1 HE).
    - intros t r. rewrite (escaped0_exact _ _ _ _ control H0 HE). split.
      + intros H. remember (Ok (span_at o l (t, r)) (span_at o l ([], t))) as out eqn:E.
        destruct H as [t' r' Ht Hno Hc| |]; try easy. unfold span_at in E. cbn [fst snd] in E. injection E as _ _ -> ->.
        apply takes_content in Ht as [-> Ht]. split; [reflexivity|]. split; [assumption|].
        apply no_normal0 in Hno. apply not_starts in Hc. destruct r as [|c r]; [easy|]. now split.
      + intros (-> & Ht & Hr). apply escaped_text.
        * apply (content_takes _ Ht [] r); [constructor|]. destruct r; [easy|]. apply Hr.
        * apply no_normal0. destruct r; [easy|]. apply Hr.
        * apply not_starts. destruct r as [|c r]; [easy|]. apply Hr.
  Qed.
End Characters.
