(** Proof layer: the errors of the character-level parsers are those of [SpecErrors]. *)
From Verif Require Export CharLevel3.

Lemma after_after p q e : after p (after q e) = after (p ++ q) e.
Proof. destruct e; cbn; rewrite <- ?app_assoc; reflexivity. Qed.
Lemma after_nil e : after [] e = e.
Proof. destruct e as [[]|[]|[]|[]|[]|[]|[]|[]|[]|[]|[]|[]|[]|[]|]; reflexivity. Qed.

Local Ltac fin := unfold after; cbn [map_error fst snd s_ app]; rewrite <- ?app_assoc; reflexivity.

(** ** Broken text *)
Lemma c_esc_fail_iff special f : classifies special f -> In backslash special ->
  forall p s e, c_esc f p s = CFail e <-> exists e', broken_text special s e' /\ e = after p e'.
Proof.
  intros Hf Hb p s e. split.
  - unfold c_esc. destruct (scan f s) as [t r] eqn:E.
    pose proof (scan_content _ _ Hf Hb _ _ _ E) as Ht. pose proof (scan_app _ _ _ _ E) as Hs.
    destruct (stop r) as [| |d] eqn:Hr; [easy|..].
    + apply stop_eol_inv in Hr as ->. destruct t as [|c t].
      * injection 1 as <-. cbn in Hs. subst s. eexists. split; [apply broken_lone_backslash|].
        cbn. now rewrite app_nil_r.
      * injection 1 as <-. subst s. eexists. split; [apply broken_text_eol; [easy|exact Ht]|].
        unfold after. cbn [map_error fst snd]. now rewrite app_nil_r.
    + apply stop_bad_inv in Hr as [r' ->]. injection 1 as <-. subst s. eexists.
      split; [apply (broken_escape special t d r'); [assumption|]|reflexivity].
      intros Hd. rewrite (scan_app_content _ _ Hf Hb _ Ht) in E.
      rewrite scan_cons_escape in E.
      * destruct (scan f r') as [t' r'']. injection E as E1 E2.
        apply (f_equal (@List.length _)) in E1. rewrite app_length in E1. cbn in E1. lia.
      * now apply (classifies_false _ _ _ Hf).
      * now apply contains_In.
  - intros (e' & He & ->). unfold c_esc. destruct He as [|t Hn Ht|t c r Ht Hc].
    + rewrite scan_stop; [cbn; now rewrite app_nil_r|].
      split; [now apply (classifies_false _ _ _ Hf)|easy].
    + rewrite (scan_app_content _ _ Hf Hb _ Ht).
      rewrite scan_stop; [|split; [now apply (classifies_false _ _ _ Hf)|easy]].
      rewrite app_nil_r. cbn [stop]. rewrite N.eqb_refl. destruct t; [easy|].
      unfold after. cbn [map_error fst snd]. now rewrite app_nil_r.
    + rewrite (scan_app_content _ _ Hf Hb _ Ht). cbn [app].
      rewrite scan_stop; [|split; [now apply (classifies_false _ _ _ Hf)|]].
      * rewrite app_nil_r. cbn [stop]. rewrite N.eqb_refl. reflexivity.
      * intros _. now apply contains_false.
Qed.
Lemma c_esc_ok_iff special f : classifies special f -> In backslash special ->
  forall p s q r x, c_esc f p s = COk q r x <->
  exists t, content special t /\ s = t ++ r /\ ends special r /\ q = p ++ t /\ x = (p, t).
Proof.
  intros Hf Hb p s q r x. split.
  - intros H. apply c_esc_ok in H as (t & -> & -> & Hs & Hscan & Hstop).
    exists t. split; [now eapply scan_content; eauto|]. repeat split; auto.
    now eapply scan_ends; eauto.
  - intros (t & Ht & -> & Hr & -> & ->). unfold c_esc.
    now destruct (scan_intro special f Hf Hb t r Ht Hr) as [-> ->].
Qed.

(** ** Parameters and optionals *)
Lemma ends_with_closing_name r : ends_with_closing is_name (c_ "}") r = true <-> completes_parameter r.
Proof.
  unfold ends_with_closing. split.
  - destruct (scan is_name r) as [t r'] eqn:E. cbn [snd]. destruct r' as [|d r']; [easy|].
    intros H. apply N.eqb_eq in H as ->. exists t, r'.
    split; [now apply scan_app in E|now eapply scan_content; eauto].
  - intros (t & r' & -> & Ht).
    destruct (scan_intro name_special is_name) with (t := t) (r := s_ "}" ++ r') as [-> _]; auto.
    split; [cbn; tauto|easy].
Qed.
Lemma ends_with_closing_optional r :
  ends_with_closing is_in_optional (c_ ")") r = true <-> completes_optional r.
Proof.
  unfold ends_with_closing. split.
  - destruct (scan is_in_optional r) as [t r'] eqn:E. cbn [snd]. destruct r' as [|d r']; [easy|].
    intros H. apply N.eqb_eq in H as ->. exists t, r'.
    split; [now apply scan_app in E|now eapply scan_content; eauto].
  - intros (t & r' & -> & Ht).
    destruct (scan_intro optional_special is_in_optional) with (t := t) (r := s_ ")" ++ r')
      as [-> _]; auto.
    split; [cbn; tauto|easy].
Qed.
Lemma has_parameter_iff s n r : has_parameter s n r <-> par_ok s = Some (n, r).
Proof. now rewrite par_ok_iff. Qed.
Lemma has_optional_iff s n r : has_optional s n r <-> opt_ok s = Some (n, r).
Proof. now rewrite opt_ok_iff. Qed.

Lemma fail_inj {A} a b : @CFail A a = CFail b -> a = b.
Proof. congruence. Qed.
Lemma c_par_fail_brace p q r : c_par_fail p q (c_ "{" :: r)
  = match par_ok (c_ "{" :: r) with
    | Some (t, r1) =>
        if ends_with_closing is_name (c_ "}") r1
        then NestedParameter (q, c_ "{" :: t ++ [c_ "}"])
        else UnescapedReservedCharacter (q, s_ "{")
    | None => UnescapedReservedCharacter (q, s_ "{")
    end.
Proof. reflexivity. Qed.
Lemma c_par_fail_paren p q r : c_par_fail p q (c_ "(" :: r)
  = match opt_ok (c_ "(" :: r) with
    | Some (t, r1) => OptionalInParameter (q, c_ "(" :: t ++ [c_ ")"])
    | None => UnescapedReservedCharacter (q, s_ "(")
    end.
Proof. reflexivity. Qed.
Lemma c_opt_fail_paren p q r : c_opt_fail p q (c_ "(" :: r)
  = match opt_ok (c_ "(" :: r) with
    | Some (t, r1) =>
        if ends_with_closing is_in_optional (c_ ")") r1
        then NestedOptional (q, c_ "(" :: t ++ [c_ ")"])
        else UnescapedReservedCharacter (q, s_ "(")
    | None => UnescapedReservedCharacter (q, s_ "(")
    end.
Proof. reflexivity. Qed.
Lemma c_opt_fail_brace p q r : c_opt_fail p q (c_ "{" :: r)
  = match par_ok (c_ "{" :: r) with
    | Some (t, r1) => ParameterInOptional (q, c_ "{" :: t ++ [c_ "}"])
    | None => UnescapedReservedCharacter (q, s_ "{")
    end.
Proof. reflexivity. Qed.

Lemma c_parameter_brace p s1 ix :
  c_parameter p (s_ "{" ++ s1) ix
  = match c_esc is_name (p ++ s_ "{") s1 with
    | COk q r t =>
        match r with
        | d :: r1 =>
            if d =? c_ "}" then COk (q ++ [d]) r1 (mkParameter t ix)
            else CFail (c_par_fail p q r)
        | [] => CFail (c_par_fail p q r)
        end
    | CErr e => CErr e
    | CFail e => CFail e
    end.
Proof. reflexivity. Qed.
Lemma c_optional_paren p s1 :
  c_optional p (s_ "(" ++ s1)
  = match c_esc is_in_optional (p ++ s_ "(") s1 with
    | COk q r t =>
        match r with
        | d :: r1 =>
            if d =? c_ ")" then
              match snd t with
              | [] => CFail (EmptyOptional (p, [c_ "("; d]))
              | _ => COk (q ++ [d]) r1 (mkOptional t)
              end
            else CFail (c_opt_fail p q r)
        | [] => CFail (c_opt_fail p q r)
        end
    | CErr e => CErr e
    | CFail e => CFail e
    end.
Proof. reflexivity. Qed.

Lemma ends_name_cases r : ends name_special r ->
  r = [] \/ exists c r1, r = c :: r1 /\ (c = c_ "}" \/ c = c_ "{" \/ c = c_ "(" \/ c = c_ "/").
Proof.
  destruct r as [|c r]; [auto|]. intros [H Hb]. right. exists c, r. split; [reflexivity|].
  unfold name_special in H. cbn [s_ In] in H.
  destruct H as [<-|[<-|[<-|[<-|[<-|[]]]]]]; auto. now destruct Hb.
Qed.
Lemma ends_optional_cases r : ends optional_special r ->
  r = [] \/ exists c r1, r = c :: r1 /\ (c = c_ ")" \/ c = c_ "{" \/ c = c_ "(" \/ c = c_ "/").
Proof.
  destruct r as [|c r]; [auto|]. intros [H Hb]. right. exists c, r. split; [reflexivity|].
  unfold optional_special in H. cbn [s_ In] in H.
  destruct H as [<-|[<-|[<-|[<-|[<-|[]]]]]]; auto. now destruct Hb.
Qed.

Lemma c_parameter_fail_iff p s ix e :
  c_parameter p s ix = CFail e <-> exists e', parameter_error s e' /\ e = after p e'.
Proof.
  split.
  - intros H. assert (Hs : exists s1, s = s_ "{" ++ s1).
    { unfold c_parameter in H. destruct s as [|c s1]; [easy|].
      destruct (N.eqb_spec c (c_ "{")) as [->|]; [|easy]. now exists s1. }
    destruct Hs as [s1 ->]. rewrite c_parameter_brace in H.
    destruct (c_esc is_name (p ++ s_ "{") s1) as [q r x|e0|e0] eqn:E.
    + apply (c_esc_ok_iff name_special is_name) in E as (t & Ht & -> & Hr & -> & ->); auto.
      apply ends_name_cases in Hr as [->|(c & r1 & -> & Hc)].
      { apply fail_inj in H; subst e. exists (UnfinishedParameter ([], s_ "{")).
        rewrite app_nil_r. split; [now constructor|]. cbn. now rewrite app_nil_r. }
      destruct Hc as [->|[->|[->| ->]]].
      * easy.
      * replace (if _ =? _ then _ else _) with
          (@CFail (parameter text_at) (c_par_fail p ((p ++ s_ "{") ++ t) (c_ "{" :: r1))) in H by reflexivity.
        apply fail_inj in H; subst e. rewrite c_par_fail_brace.
        destruct (par_ok (c_ "{" :: r1)) as [[n r2]|] eqn:Ep.
        -- pose proof (proj2 (has_parameter_iff _ _ _) Ep) as Hp.
           destruct (ends_with_closing is_name (c_ "}") r2) eqn:Ec.
           ++ eexists. split; [eapply par_nested; [exact Ht|exact Hp|now apply ends_with_closing_name]|].
              fin.
           ++ eexists. split; [apply (par_brace t r1); [exact Ht|]|fin].
              intros n' r' Hp' Hcl. apply has_parameter_iff in Hp'. cbn [s_ app] in Hp'.
              rewrite Ep in Hp'. injection Hp' as <- <-.
              apply ends_with_closing_name in Hcl. congruence.
        -- eexists. split; [apply (par_brace t r1); [exact Ht|]|fin].
           intros n' r' Hp'. apply has_parameter_iff in Hp'. cbn [s_ app] in Hp'. congruence.
      * replace (if _ =? _ then _ else _) with
          (@CFail (parameter text_at) (c_par_fail p ((p ++ s_ "{") ++ t) (c_ "(" :: r1))) in H by reflexivity.
        apply fail_inj in H; subst e. rewrite c_par_fail_paren.
        destruct (opt_ok (c_ "(" :: r1)) as [[n r2]|] eqn:Ep.
        -- eexists. split; [eapply par_optional; [exact Ht|now apply has_optional_iff, Ep]|].
           fin.
        -- eexists. split; [apply (par_paren t r1); [exact Ht|]|fin].
           intros n' r' Hp'. apply has_optional_iff in Hp'. cbn [s_ app] in Hp'. congruence.
      * replace (if _ =? _ then _ else _) with
          (@CFail (parameter text_at) (UnescapedReservedCharacter ((p ++ s_ "{") ++ t, s_ "/"))) in H by reflexivity.
        apply fail_inj in H; subst e. eexists. split; [apply (par_slash t r1); exact Ht|].
        fin.
    + now apply c_esc_not_err in E.
    + apply fail_inj in H; subst e.
      apply (c_esc_fail_iff name_special is_name) in E as (e' & He & ->); auto.
      exists (after (s_ "{") e'). rewrite after_after. split; [now constructor|reflexivity].
  - intros (e' & He & ->).
    assert (Hgo : forall t r, content name_special t -> ends name_special r ->
      match r with d :: _ => d <> c_ "}" | [] => True end ->
      c_parameter p (s_ "{" ++ t ++ r) ix = CFail (c_par_fail p ((p ++ s_ "{") ++ t) r)).
    { intros t r Ht Hr Hd. rewrite c_parameter_brace.
      rewrite (proj2 (c_esc_ok_iff name_special is_name classifies_name bs_name _ _
                        ((p ++ s_ "{") ++ t) r (p ++ s_ "{", t))) by eauto 10.
      destruct r as [|d r]; [reflexivity|]. now destruct (N.eqb_spec d (c_ "}")). }
    assert (Hend : forall c r, c = c_ "{" \/ c = c_ "(" \/ c = c_ "/" ->
              ends name_special (c :: r) /\ c <> c_ "}").
    { intros c r Hc. destruct Hc as [->|[->| ->]]; (split; [split; [cbn; tauto|easy]|easy]). }
    destruct He as [s e He|t Ht|t s n r Ht Hp Hc|t s n r Ht Hp|t r0 Ht Hno|t r0 Ht Hno|t r Ht].
    + rewrite c_parameter_brace.
      rewrite (proj2 (c_esc_fail_iff name_special is_name classifies_name bs_name
                 (p ++ s_ "{") s (after (p ++ s_ "{") e))) by eauto.
      now rewrite after_after.
    + rewrite <- (app_nil_r t). rewrite Hgo by easy. cbn. now rewrite app_nil_r.
    + destruct Hp as [-> Hn]. rewrite Hgo; [|assumption|apply Hend; auto|apply (Hend _ []); auto].
      cbn [s_ app]. rewrite c_par_fail_brace.
      rewrite (proj1 (has_parameter_iff (c_ "{" :: n ++ c_ "}" :: r) n r)) by now split.
      rewrite (proj2 (ends_with_closing_name r) Hc). cbn. rewrite <- !app_assoc. reflexivity.
    + destruct Hp as [-> Hn]. rewrite Hgo; [|assumption|apply Hend; auto|apply (Hend _ []); auto].
      cbn [s_ app]. rewrite c_par_fail_paren.
      rewrite (proj1 (has_optional_iff (c_ "(" :: n ++ c_ ")" :: r) n r)) by now split.
      cbn. rewrite <- !app_assoc. reflexivity.
    + rewrite Hgo; [|assumption|apply Hend; auto|apply (Hend _ []); auto].
      cbn [s_ app] in *. rewrite c_par_fail_brace.
      destruct (par_ok (c_ "{" :: r0)) as [[n r]|] eqn:Ep.
      * apply has_parameter_iff in Ep. pose proof (Hno _ _ Ep) as Hcl.
        rewrite <- ends_with_closing_name in Hcl.
        destruct (ends_with_closing is_name (c_ "}") r); [easy|].
        cbn. rewrite <- !app_assoc. reflexivity.
      * cbn. rewrite <- !app_assoc. reflexivity.
    + rewrite Hgo; [|assumption|apply Hend; auto|apply (Hend _ []); auto].
      cbn [s_ app] in *. rewrite c_par_fail_paren.
      destruct (opt_ok (c_ "(" :: r0)) as [[n r]|] eqn:Ep.
      * apply has_optional_iff in Ep. now apply Hno in Ep.
      * cbn. rewrite <- !app_assoc. reflexivity.
    + rewrite Hgo; [|assumption|apply Hend; auto|apply (Hend _ []); auto].
      cbn. rewrite <- !app_assoc. reflexivity.
Qed.

Lemma c_optional_fail_iff p s e :
  c_optional p s = CFail e <-> exists e', optional_error s e' /\ e = after p e'.
Proof.
  split.
  - intros H. assert (Hs : exists s1, s = s_ "(" ++ s1).
    { unfold c_optional in H. destruct s as [|c s1]; [easy|].
      destruct (N.eqb_spec c (c_ "(")) as [->|]; [|easy]. now exists s1. }
    destruct Hs as [s1 ->]. rewrite c_optional_paren in H.
    destruct (c_esc is_in_optional (p ++ s_ "(") s1) as [q r x|e0|e0] eqn:E.
    + apply (c_esc_ok_iff optional_special is_in_optional) in E as (t & Ht & -> & Hr & -> & ->); auto.
      apply ends_optional_cases in Hr as [->|(c & r1 & -> & Hc)].
      { apply fail_inj in H; subst e. exists (UnfinishedOptional ([], s_ "(")).
        rewrite app_nil_r. split; [now constructor|]. cbn. now rewrite app_nil_r. }
      destruct Hc as [->|[->|[->| ->]]].
      * destruct t as [|d t]; [|easy].
        replace (if _ =? _ then _ else _) with
          (@CFail (optional text_at) (EmptyOptional (p, s_ "()"))) in H by reflexivity.
        apply fail_inj in H; subst e. eexists. split; [apply (opt_empty r1)|]. cbn. now rewrite app_nil_r.
      * replace (if _ =? _ then _ else _) with
          (@CFail (optional text_at) (c_opt_fail p ((p ++ s_ "(") ++ t) (c_ "{" :: r1))) in H by reflexivity.
        apply fail_inj in H; subst e. rewrite c_opt_fail_brace.
        destruct (par_ok (c_ "{" :: r1)) as [[n r2]|] eqn:Ep.
        -- eexists. split; [eapply opt_parameter; [exact Ht|now apply has_parameter_iff, Ep]|].
           fin.
        -- eexists. split; [apply (opt_brace t r1); [exact Ht|]|fin].
           intros n' r' Hp'. apply has_parameter_iff in Hp'. cbn [s_ app] in Hp'. congruence.
      * replace (if _ =? _ then _ else _) with
          (@CFail (optional text_at) (c_opt_fail p ((p ++ s_ "(") ++ t) (c_ "(" :: r1))) in H by reflexivity.
        apply fail_inj in H; subst e. rewrite c_opt_fail_paren.
        destruct (opt_ok (c_ "(" :: r1)) as [[n r2]|] eqn:Ep.
        -- pose proof (proj2 (has_optional_iff _ _ _) Ep) as Hp.
           destruct (ends_with_closing is_in_optional (c_ ")") r2) eqn:Ec.
           ++ eexists. split; [eapply opt_nested; [exact Ht|exact Hp|now apply ends_with_closing_optional]|].
              fin.
           ++ eexists. split; [apply (opt_paren t r1); [exact Ht|]|fin].
              intros n' r' Hp' Hcl. apply has_optional_iff in Hp'. cbn [s_ app] in Hp'.
              rewrite Ep in Hp'. injection Hp' as <- <-.
              apply ends_with_closing_optional in Hcl. congruence.
        -- eexists. split; [apply (opt_paren t r1); [exact Ht|]|fin].
           intros n' r' Hp'. apply has_optional_iff in Hp'. cbn [s_ app] in Hp'. congruence.
      * replace (if _ =? _ then _ else _) with
          (@CFail (optional text_at) (AlternationInOptional ((p ++ s_ "(") ++ t, s_ "/"))) in H by reflexivity.
        apply fail_inj in H; subst e. eexists. split; [apply (opt_slash t r1); exact Ht|].
        fin.
    + now apply c_esc_not_err in E.
    + apply fail_inj in H; subst e.
      apply (c_esc_fail_iff optional_special is_in_optional) in E as (e' & He & ->); auto.
      exists (after (s_ "(") e'). rewrite after_after. split; [now constructor|reflexivity].
  - intros (e' & He & ->).
    assert (Hgo : forall t r, content optional_special t -> ends optional_special r ->
      match r with d :: _ => d <> c_ ")" | [] => True end ->
      c_optional p (s_ "(" ++ t ++ r) = CFail (c_opt_fail p ((p ++ s_ "(") ++ t) r)).
    { intros t r Ht Hr Hd. rewrite c_optional_paren.
      rewrite (proj2 (c_esc_ok_iff optional_special is_in_optional classifies_optional bs_optional _ _
                        ((p ++ s_ "(") ++ t) r (p ++ s_ "(", t))) by eauto 10.
      destruct r as [|d r]; [reflexivity|]. now destruct (N.eqb_spec d (c_ ")")). }
    assert (Hend : forall c r, c = c_ "{" \/ c = c_ "(" \/ c = c_ "/" ->
              ends optional_special (c :: r) /\ c <> c_ ")").
    { intros c r Hc. destruct Hc as [->|[->| ->]]; (split; [split; [cbn; tauto|easy]|easy]). }
    destruct He as [s e He|t Ht|r|t s n r Ht Hp Hc|t s n r Ht Hp|t r Ht|t r0 Ht Hno|t r0 Ht Hno].
    + rewrite c_optional_paren.
      rewrite (proj2 (c_esc_fail_iff optional_special is_in_optional classifies_optional bs_optional
                 (p ++ s_ "(") s (after (p ++ s_ "(") e))) by eauto.
      now rewrite after_after.
    + rewrite <- (app_nil_r t). rewrite Hgo by easy. cbn. now rewrite app_nil_r.
    + change (s_ "()" ++ r) with (s_ "(" ++ [] ++ s_ ")" ++ r). rewrite c_optional_paren.
      rewrite (proj2 (c_esc_ok_iff optional_special is_in_optional classifies_optional bs_optional _ _
                        ((p ++ s_ "(") ++ []) (s_ ")" ++ r) (p ++ s_ "(", []))).
      * cbn. now rewrite app_nil_r.
      * exists []. repeat split; auto; [constructor|cbn; tauto|easy].
    + destruct Hp as [-> [Hn0 Hn]]. rewrite Hgo; [|assumption|apply Hend; auto|apply (Hend _ []); auto].
      cbn [s_ app]. rewrite c_opt_fail_paren.
      rewrite (proj1 (has_optional_iff (c_ "(" :: n ++ c_ ")" :: r) n r)) by now repeat split.
      rewrite (proj2 (ends_with_closing_optional r) Hc). cbn. rewrite <- !app_assoc. reflexivity.
    + destruct Hp as [-> Hn]. rewrite Hgo; [|assumption|apply Hend; auto|apply (Hend _ []); auto].
      cbn [s_ app]. rewrite c_opt_fail_brace.
      rewrite (proj1 (has_parameter_iff (c_ "{" :: n ++ c_ "}" :: r) n r)) by now split.
      cbn. rewrite <- !app_assoc. reflexivity.
    + rewrite Hgo; [|assumption|apply Hend; auto|apply (Hend _ []); auto].
      cbn. rewrite <- !app_assoc. reflexivity.
    + rewrite Hgo; [|assumption|apply Hend; auto|apply (Hend _ []); auto].
      cbn [s_ app] in *. rewrite c_opt_fail_paren.
      destruct (opt_ok (c_ "(" :: r0)) as [[n r]|] eqn:Ep.
      * apply has_optional_iff in Ep. pose proof (Hno _ _ Ep) as Hcl.
        rewrite <- ends_with_closing_optional in Hcl.
        destruct (ends_with_closing is_in_optional (c_ ")") r); [easy|].
        cbn. rewrite <- !app_assoc. reflexivity.
      * cbn. rewrite <- !app_assoc. reflexivity.
    + rewrite Hgo; [|assumption|apply Hend; auto|apply (Hend _ []); auto].
      cbn [s_ app] in *. rewrite c_opt_fail_brace.
      destruct (par_ok (c_ "{" :: r0)) as [[n r]|] eqn:Ep.
      * apply has_parameter_iff in Ep. now apply Hno in Ep.
      * cbn. rewrite <- !app_assoc. reflexivity.
Qed.

(** ** Branches *)
Lemma optional_error_head s e : optional_error s e -> exists r, s = s_ "(" ++ r.
Proof. destruct 1; eexists; reflexivity. Qed.
Lemma content_head special c t r : content special (c :: t) ->
  ends special (c :: r) -> False.
Proof.
  intros H [H1 H2]. inversion H; subst; [easy|]. now apply H2.
Qed.
Lemma broken_not_ends special s e : broken_text special s e -> ends special s -> False.
Proof.
  intros [|t Hn Ht|t c r Ht Hc].
  - intros [_ H]. now apply H.
  - destruct t as [|d t]; [easy|]. intros H. eapply content_head; [exact Ht|exact H].
  - destruct t as [|d t].
    + intros [_ H]. now apply H.
    + intros H. eapply content_head; [exact Ht|exact H].
Qed.
Lemma item_error_head s e : item_error s e -> (ends text_special s <-> starts_with_in (s_ "(") s).
Proof.
  intros H. split.
  - intros He. destruct H as [H|H].
    + apply optional_error_head in H as [r ->]. exists (c_ "("), r. split; [reflexivity|cbn; tauto].
    + now apply broken_not_ends in H.
  - intros (c & r & -> & Hc). cbn in Hc. destruct Hc as [<-|[]]. split; [cbn; tauto|easy].
Qed.
Lemma item_error_not_branch_end s e : item_error s e -> ~ branch_end s.
Proof.
  intros H Hb. destruct (item_error_head _ _ H) as [H1 _].
  apply branch_end_ends in Hb as Hb'. destruct (H1 Hb') as (c & r & -> & Hc).
  cbn in Hc, Hb. destruct Hc as [<-|[]]. intuition easy.
Qed.

Lemma c_text_fail_iff p s e :
  c_text p s = CFail e <-> exists e', broken_text text_special s e' /\ e = after p e'.
Proof.
  rewrite <- (c_esc_fail_iff text_special is_without_whitespace classifies_text bs_text p s e).
  unfold c_text. destruct (c_esc is_without_whitespace p s) as [q r [p' [|c t]]|e'|e']; split; easy.
Qed.
Lemma c_alternative_fail_iff p s e :
  c_alternative p s = CFail e <-> exists e', item_error s e' /\ e = after p e'.
Proof.
  unfold c_alternative. split.
  - destruct (c_optional p s) as [q r a|e1|e1] eqn:E; [easy| |].
    + destruct (c_text p s) as [q r a|e2|e2] eqn:E2; [easy..|].
      intros H. apply fail_inj in H. subst e2. apply c_text_fail_iff in E2 as (e' & He & ->).
      exists e'. split; [now right|reflexivity].
    + intros H. apply fail_inj in H. subst e1. apply c_optional_fail_iff in E as (e' & He & ->).
      exists e'. split; [now left|reflexivity].
  - intros (e' & [He|He] & ->).
    + rewrite (proj2 (c_optional_fail_iff p s (after p e'))) by eauto. reflexivity.
    + destruct (proj2 (c_optional_err_iff p s)) as [e1 ->].
      { destruct s as [|c s]; [easy|]. intros ->.
        eapply broken_not_ends; [exact He|]. split; [cbn; tauto|easy]. }
      rewrite (proj2 (c_text_fail_iff p s (after p e'))) by eauto. reflexivity.
Qed.

(** [b] is a complete prefix of a branch before [s]. *)
Definition cut (b : single_alternation str) (s : str) : Prop :=
  ends_in_text b -> ends text_special s.
Lemma ends_in_text_cons x b :
  ends_in_text (x :: b) <-> match b with [] => is_text x | _ => ends_in_text b end.
Proof.
  unfold ends_in_text. destruct b as [|y b].
  - split; [|intros; exists [], x; auto]. intros (l & z & H & Hz).
    destruct l as [|u l]; [now injection H as ->|]. injection H as _ H. now destruct l.
  - split.
    + intros (l & z & H & Hz). destruct l as [|u l]; [easy|]. injection H as _ H. eauto.
    + intros (l & z & H & Hz). exists (x :: l), z. rewrite H. auto.
Qed.

Lemma c_many_fail_iff : forall fuel (p s : str) e, (List.length s < fuel)%nat ->
  (exists x, c_many fuel c_alternative p s = (x, CFail e)) <->
  exists b s' e', items_ok b /\ s = src_branch b ++ s' /\ cut b s' /\ item_error s' e' /\
                  e = after (p ++ src_branch b) e'.
Proof.
  induction fuel as [|fuel IH]; intros p s e Hf; [lia|]. cbn [c_many]. split.
  - intros [x H]. destruct (c_alternative p s) as [q' r' a|e1|e1] eqn:E; [|easy|].
    + destruct (advances_shorter _ _ _ _ _ _ c_alternative_advances E) as [Hl _].
      destruct (c_many fuel c_alternative q' r') as [x' c] eqn:Ec.
      assert (c = CFail e) as -> by congruence.
      destruct (proj1 (IH q' r' e ltac:(lia)) (ex_intro _ _ Ec))
        as (b & s' & e' & [Hb1 Hb2] & -> & Hcut & He & ->).
      apply c_alternative_ok_iff in E as (a' & Ha & -> & Hend & -> & ->).
      exists (a' :: b), s', e'. split; [split|].
      * now constructor.
      * cbn. split; [|assumption]. destruct b as [|y b]; [easy|]. intros [H1 H2].
        inversion Hb1. rewrite src_branch_cons, <- app_assoc in Hend.
        now apply (ends_app_alternative y (src_branch b ++ s')) in Hend.
      * rewrite src_branch_cons. rewrite <- !app_assoc. split; [reflexivity|].
        split; [|auto]. unfold cut. rewrite ends_in_text_cons. destruct b; auto.
    + assert (e1 = e) as -> by congruence.
      apply c_alternative_fail_iff in E as (e' & He & ->). exists [], s, e'.
      cbn [src_branch map List.concat]. rewrite app_nil_r.
      split; [split; [constructor|exact I]|]. repeat split; auto.
      intros (l & y & Hy & _). now destruct l.
  - intros (b & s' & e' & [Hb1 Hb2] & -> & Hcut & He & ->). destruct b as [|a b].
    + cbn [src_branch List.concat map app] in *. rewrite app_nil_r.
      rewrite (proj2 (c_alternative_fail_iff p s' (after p e'))) by eauto. eauto.
    + rewrite src_branch_cons, <- app_assoc in *. inversion Hb1 as [|? ? Ha Hb]; subst.
      unfold cut in Hcut. rewrite ends_in_text_cons in Hcut.
      assert (E : c_alternative p (src_alternative a ++ src_branch b ++ s')
              = COk (p ++ src_alternative a) (src_branch b ++ s') (place_alternative p a)).
      { apply c_alternative_ok_iff. exists a. repeat split; auto. intros Ht.
        destruct b as [|y b]; [now apply Hcut|].
        rewrite src_branch_cons, <- app_assoc. inversion Hb. apply ends_app_alternative; auto.
        cbn in Hb2. unfold not_texts in Hb2. tauto. }
      rewrite E. destruct (advances_shorter _ _ _ _ _ _ c_alternative_advances E) as [Hl _].
      destruct (proj2 (IH (p ++ src_alternative a) (src_branch b ++ s')
        (after (p ++ src_alternative a ++ src_branch b) e') ltac:(lia))) as [x ->]; [|eauto].
      exists b, s', e'. cbn in Hb2. rewrite <- app_assoc. repeat split; auto; try apply Hb2.
      destruct b; [|exact Hcut]. intros (l & y & Hy & _). now destruct l.
Qed.
Lemma c_branch_fail_iff p s e :
  c_branch p s = CFail e <->
  exists b s' e', items_ok b /\ s = src_branch b ++ s' /\ cut b s' /\ item_error s' e' /\
                  e = after (p ++ src_branch b) e'.
Proof.
  rewrite <- (c_many_fail_iff (S (List.length s))) by lia.
  unfold c_branch. rewrite c_many_S.
  destruct (c_alternative p s) as [q' r' a|e1|e1] eqn:E.
  - destruct (advances_shorter _ _ _ _ _ _ c_alternative_advances E) as [Hl _].
    rewrite (c_many_fuel c_alternative c_alternative_advances (S (List.length r')) (List.length s))
      by lia.
    destruct (c_many (List.length s) c_alternative q' r') as [x' [q2 r2 u|e2|e2]]; cbn;
      (split; [|intros [x H]]; try easy).
    + intros H. apply fail_inj in H as ->. eauto.
    + now injection H as _ ->.
  - split; [easy|]. now intros [x H].
  - split; [intros H; apply fail_inj in H as ->; eauto|]. intros [x H]. congruence.
Qed.

(** ** Alternations *)
Lemma c_seps_fail_iff : forall fuel (p s : str) e, (List.length s < fuel)%nat -> branch_end s ->
  (exists x, c_seps fuel p s = (x, CFail e)) <->
  exists a b s' e', Forall branch_ok a /\ items_ok b /\ s = tail_of a ++ s_ "/" ++ src_branch b ++ s' /\
    cut b s' /\ item_error s' e' /\ e = after (p ++ tail_of a ++ s_ "/" ++ src_branch b) e'.
Proof.
  induction fuel as [|fuel IH]; intros p s e Hf Hbe; [lia|]. cbn [c_seps]. split.
  - intros [x H]. destruct s as [|c s1]; [easy|].
    destruct (N.eqb_spec c (c_ "/")) as [->|Hne]; [|easy].
    destruct (c_branch (p ++ [c_ "/"]) s1) as [q' r' b|e1|e1] eqn:E; [|easy|].
    + destruct (c_seps fuel q' r') as [x' c'] eqn:Ec. assert (c' = CFail e) as -> by congruence.
      destruct (advances_shorter _ _ _ _ _ _ c_branch_advances E) as [Hl _].
      apply c_branch_ok_iff in E as (b' & Hn & Hb & -> & Hr & -> & ->).
      cbn [List.length] in Hf.
      assert (Hlt : (List.length r' < fuel)%nat) by lia.
      destruct (proj1 (IH _ _ e Hlt Hr) (ex_intro _ _ Ec))
        as (a & b1 & s' & e' & Ha & Hb1 & -> & Hcut & He & ->).
      exists (b' :: a), b1, s', e'. rewrite tail_cons. split; [constructor; [split|]; auto|].
      split; [assumption|]. split; [cbn; now rewrite <- !app_assoc|]. split; [assumption|].
      split; [assumption|now rewrite <- !app_assoc].
    + assert (e1 = e) as -> by congruence.
      apply c_branch_fail_iff in E as (b & s' & e' & Hb & -> & Hcut & He & ->).
      exists [], b, s', e'. rewrite <- !app_assoc. split; [constructor|]. auto 10.
  - intros (a & b & s' & e' & Ha & Hb & -> & Hcut & He & ->). destruct a as [|b1 a].
    + cbn [tail_of map List.concat app s_]. change (c_ "/" =? c_ "/") with true. cbn iota.
      rewrite (proj2 (c_branch_fail_iff (p ++ [c_ "/"]) (src_branch b ++ s')
                 (after ((p ++ [c_ "/"]) ++ src_branch b) e'))) by eauto 10.
      rewrite <- app_assoc. eauto.
    + inversion Ha as [|? ? [Hn Hb1] Ha']; subst. rewrite tail_cons in *.
      rewrite <- !app_assoc in *. cbn [s_ app] in *. change (c_ "/" =? c_ "/") with true.
      cbn iota.
      assert (Hbe' : branch_end (tail_of a ++ c_ "/" :: src_branch b ++ s'))
        by (apply tail_of_branch_end; cbn; tauto).
      assert (E : c_branch (p ++ [c_ "/"]) (src_branch b1 ++ tail_of a ++ c_ "/" :: src_branch b ++ s')
        = COk ((p ++ [c_ "/"]) ++ src_branch b1) (tail_of a ++ c_ "/" :: src_branch b ++ s')
            (place_branch (p ++ [c_ "/"]) b1)).
      { apply c_branch_ok_iff. exists b1. split; [assumption|]. split; [assumption|].
        split; [reflexivity|]. split; [|split; reflexivity]. assumption. }
      rewrite E. destruct (advances_shorter _ _ _ _ _ _ c_branch_advances E) as [Hl _].
      cbn [List.length] in Hf.
      destruct (proj2 (IH ((p ++ [c_ "/"]) ++ src_branch b1) (tail_of a ++ c_ "/" :: src_branch b ++ s')
        (after (p ++ c_ "/" :: src_branch b1 ++ tail_of a ++ c_ "/" :: src_branch b) e')
        ltac:(lia) Hbe')) as [x ->]; [|eauto].
      exists a, b, s', e'. rewrite <- !app_assoc. auto 10.
Qed.

Lemma items_iff b : items b <-> items_ok b.
Proof. unfold items, items_ok. now rewrite linked_iff. Qed.
Lemma branch_iff b : branch b <-> branch_ok b.
Proof. unfold branch, branch_ok. now rewrite items_iff. Qed.
Lemma branches_iff a : Forall branch a <-> Forall branch_ok a.
Proof. rewrite !Forall_forall. setoid_rewrite branch_iff. reflexivity. Qed.
Lemma slashed_cons b a : slashed (b :: a) = src_branch b ++ s_ "/" ++ slashed a.
Proof. unfold slashed. cbn [map List.concat]. now rewrite <- app_assoc. Qed.
Lemma slashed_tail : forall a b, slashed (b :: a) = src_branch b ++ tail_of a ++ s_ "/".
Proof.
  induction a as [|c a IH]; intros b; [now rewrite slashed_cons, app_nil_r|].
  rewrite slashed_cons, IH, tail_cons, <- !app_assoc. reflexivity.
Qed.
Lemma slashed_app a b : slashed (a ++ [b]) = slashed a ++ src_branch b ++ s_ "/".
Proof. unfold slashed. rewrite map_app, concat_app. cbn. now rewrite app_nil_r. Qed.
Lemma starts_slash_true r : starts_slash r = true -> exists r1, r = s_ "/" ++ r1.
Proof.
  destruct r as [|c r]; [easy|]. cbn. intros H. apply N.eqb_eq in H as ->. now exists r.
Qed.
Lemma branch_end_iff r : branch_end r <-> (r = [] \/ starts_with_in (s_ " {/") r).
Proof.
  destruct r as [|c r]; cbn [branch_end]; [split; auto|]. split.
  - intros H. right. exists c, r. auto.
  - intros [H|(d & r' & H & Hd)]; [easy|]. now injection H as -> _.
Qed.
Lemma word_end_iff' r : word_end r <-> (r = [] \/ starts_with_in (s_ " {") r).
Proof.
  destruct r as [|c r]; cbn [word_end]; [split; auto|]. split.
  - intros H. right. exists c, r. auto.
  - intros [H|(d & r' & H & Hd)]; [easy|]. now injection H as -> _.
Qed.
Lemma not_all_text a : ~ Forall (Exists is_text) a <-> Exists (fun b => ~ Exists is_text b) a.
Proof.
  assert (D : forall b : single_alternation str, {Exists is_text b} + {~ Exists is_text b}).
  { intros b. apply Exists_dec. intros [|]; cbn; auto. }
  split.
  - intros H. apply neg_Forall_Exists_neg in H; auto.
  - apply Exists_Forall_neg. intros b. destruct (D b); tauto.
Qed.

Lemma c_alternation_fail_iff p s e :
  c_alternation p s = CFail e <-> exists e', alternation_error s e' /\ e = after p e'.
Proof.
  unfold c_alternation. split.
  - destruct (c_branch p s) as [q r x|e1|e1] eqn:E.
    + apply c_branch_ok_iff in E as (b & Hn & Hb & -> & Hr & -> & ->).
      destruct (c_seps (S (List.length r)) (p ++ src_branch b) r) as [x' [q2 r2 u|e2|e2]] eqn:Ec.
      * apply c_seps_ok_iff in Ec as (a & Ha & -> & [Hend1 Hend2] & -> & ->); [|lia|assumption].
        destruct (starts_slash r2) eqn:Hsl.
        -- intros H. apply fail_inj in H as <-. apply starts_slash_true in Hsl as [r3 ->].
           destruct (exists_last (l := b :: a)) as (a' & b' & Hab); [easy|].
           assert (Hsrc : src_branch b ++ tail_of a ++ s_ "/" = slashed a' ++ src_branch b' ++ s_ "/").
           { etransitivity; [symmetry; apply slashed_tail|]. etransitivity; [|apply slashed_app].
             f_equal. exact Hab. }
           assert (Hsrc' : src_branch b ++ tail_of a = slashed a' ++ src_branch b').
           { apply (app_inv_tail (s_ "/")). rewrite <- !app_assoc. exact Hsrc. }
           assert (Hall : Forall branch (a' ++ [b'])).
           { rewrite <- Hab. apply branches_iff. constructor; [split|]; assumption. }
           apply Forall_app in Hall as [Ha' Hb']. inversion Hb'; subst.
           exists (EmptyAlternation (slashed a' ++ src_branch b', s_ "/")). split.
           ++ replace (src_branch b ++ tail_of a ++ s_ "/" ++ r3)
                with (slashed a' ++ src_branch b' ++ s_ "/" ++ r3).
              2:{ rewrite !app_assoc. f_equal. f_equal. symmetry. exact Hsrc'. }
              constructor; auto. apply branch_end_iff. now apply Hend2.
           ++ unfold after. cbn [map_error fst snd]. rewrite <- Hsrc', <- app_assoc. reflexivity.
        -- destruct a as [|b1 a]; [easy|]. cbn [place_tail].
           destruct (contains_only_optional _) eqn:Ho; [|easy].
           change (place_branch ((p ++ src_branch b) ++ s_ "/") b1 ::
                   place_tail ((p ++ src_branch b) ++ s_ "/" ++ src_branch b1) a)
             with (place_tail (p ++ src_branch b) (b1 :: a)) in Ho.
           rewrite <- place_alternation_tail in Ho.
           intros H. apply fail_inj in H as <-. rewrite app_assoc, firstn_app_exact.
           rewrite <- join_tail.
           exists (OnlyOptionalInAlternation ([], join (s_ "/") (map src_branch (b :: b1 :: a)))).
           split.
           ++ constructor.
              ** cbn. lia.
              ** apply branches_iff. constructor; [split|]; assumption.
              ** apply word_end_iff', word_end_iff. split; [split|]; assumption.
              ** apply not_all_text. intros H. apply (contains_only_optional_place p) in H.
                 discriminate (eq_trans (eq_sym Ho) H).
           ++ unfold after. cbn [map_error fst snd]. now rewrite app_nil_r.
      * easy.
      * intros H. apply fail_inj in H as ->.
        destruct (proj1 (c_seps_fail_iff _ _ _ e (le_n _) Hr) (ex_intro _ _ Ec))
          as (a & b1 & s' & e' & Ha & Hb1 & -> & Hcut & He & ->).
        exists (after (slashed (b :: a) ++ src_branch b1) e').
        rewrite after_after, slashed_tail. split; [|now rewrite <- !app_assoc].
        replace (src_branch b ++ tail_of a ++ s_ "/" ++ src_branch b1 ++ s')
          with (slashed (b :: a) ++ src_branch b1 ++ s') by now rewrite slashed_tail, <- !app_assoc.
        rewrite <- slashed_tail. constructor; auto.
        -- apply branches_iff. constructor; [split|]; assumption.
        -- now apply items_iff.
        -- intros Ht. apply (item_error_head _ _ He). now apply Hcut.
    + destruct (starts_slash s) eqn:Hsl; [|easy]. intros H. apply fail_inj in H as <-.
      apply starts_slash_true in Hsl as [r ->]. eexists. split; [apply alt_leading_slash|].
      unfold after. cbn [map_error fst snd]. now rewrite app_nil_r.
    + intros H. apply fail_inj in H as ->.
      apply c_branch_fail_iff in E as (b & s' & e' & Hb & -> & Hcut & He & ->).
      exists (after (src_branch b) e'). rewrite after_after. split; [|reflexivity].
      apply (alt_broken [] b s' e'); auto.
      * now apply items_iff.
      * intros Ht. apply (item_error_head _ _ He). now apply Hcut.
  - intros (e0 & He & ->). destruct He as [a b s e Ha Hb Hcut He|r|a b r Ha Hb Hr|a r Hl Ha Hr Ho].
    + apply items_iff in Hb. apply branches_iff in Ha. rewrite after_after.
      assert (Hc : cut b s) by (intros H; now apply (item_error_head _ _ He), Hcut).
      destruct a as [|b0 a].
      * cbn [slashed map List.concat app].
        rewrite (proj2 (c_branch_fail_iff p (src_branch b ++ s) (after (p ++ src_branch b) e)))
          by eauto 10. reflexivity.
      * inversion Ha as [|? ? [Hn Hb0] Ha']; subst. rewrite slashed_tail, <- !app_assoc.
        assert (Hbe : branch_end (tail_of a ++ s_ "/" ++ src_branch b ++ s))
          by (apply tail_of_branch_end; cbn; tauto).
        rewrite (proj2 (c_branch_ok_iff p _ (p ++ src_branch b0)
                          (tail_of a ++ s_ "/" ++ src_branch b ++ s) (place_branch p b0))) by eauto 10.
        destruct (proj2 (c_seps_fail_iff (S (List.length (tail_of a ++ s_ "/" ++ src_branch b ++ s)))
           (p ++ src_branch b0) (tail_of a ++ s_ "/" ++ src_branch b ++ s)
           (after (p ++ src_branch b0 ++ tail_of a ++ s_ "/" ++ src_branch b) e) ltac:(lia) Hbe))
          as [x ->]; [|reflexivity].
        exists a, b, s, e. rewrite <- !app_assoc. auto 10.
    + destruct (proj2 (c_branch_err_iff p (s_ "/" ++ r))) as [e1 ->]; [cbn; tauto|].
      change (starts_slash (s_ "/" ++ r)) with true. cbn iota. unfold after.
      cbn [map_error fst snd]. now rewrite app_nil_r.
    + apply branch_end_iff in Hr. rewrite branches_iff in Ha. apply branch_iff in Hb.
      assert (Hx : exists b0 a0, src_branch b0 ++ tail_of a0 = slashed a ++ src_branch b /\
                                 branch_ok b0 /\ Forall branch_ok a0).
      { clear -Ha Hb. destruct a as [|b0 a]; [exists b, []; cbn; rewrite app_nil_r; auto|].
        inversion Ha; subst. exists b0, (a ++ [b]). rewrite slashed_tail. split.
        - unfold tail_of. rewrite map_app, concat_app. cbn. now rewrite app_nil_r, <- !app_assoc.
        - split; [assumption|]. apply Forall_app. auto. }
      destruct Hx as (b0 & a0 & Heq & [Hn0 Hb0] & Ha0).
      replace (slashed a ++ src_branch b ++ s_ "/" ++ r)
        with (src_branch b0 ++ tail_of a0 ++ s_ "/" ++ r) by (rewrite !app_assoc; congruence).
      assert (Hbe : branch_end (tail_of a0 ++ s_ "/" ++ r))
          by (apply tail_of_branch_end; cbn; tauto).
      rewrite (proj2 (c_branch_ok_iff p _ (p ++ src_branch b0)
                          (tail_of a0 ++ s_ "/" ++ r) (place_branch p b0))) by eauto 10.
      rewrite (proj2 (c_seps_ok_iff (S (List.length (tail_of a0 ++ s_ "/" ++ r))) (p ++ src_branch b0)
          (tail_of a0 ++ s_ "/" ++ r) (place_tail (p ++ src_branch b0) a0)
          ((p ++ src_branch b0) ++ tail_of a0) (s_ "/" ++ r) tt ltac:(lia) Hbe)).
      2:{ exists a0. split; [assumption|]. split; [reflexivity|]. split; [|auto].
          split; [cbn; tauto|]. intros _. exact Hr. }
      change (starts_slash (s_ "/" ++ r)) with true. cbn iota. unfold after.
      cbn [map_error fst snd]. now rewrite <- Heq, <- app_assoc.
    + destruct a as [|b [|b1 a]]; [cbn in Hl; lia..|]. apply branches_iff in Ha.
      apply word_end_iff' in Hr. pose proof (proj1 (word_end_iff r) Hr) as [Hle Hsl].
      rewrite join_tail, <- app_assoc. inversion Ha as [|? ? [Hn Hb] Ha']; subst.
      assert (Hbe : branch_end (tail_of (b1 :: a) ++ r)) by (apply tail_of_branch_end, Hle).
      rewrite (proj2 (c_branch_ok_iff p _ (p ++ src_branch b) (tail_of (b1 :: a) ++ r)
                        (place_branch p b))) by eauto 10.
      rewrite (proj2 (c_seps_ok_iff (S (List.length (tail_of (b1 :: a) ++ r))) (p ++ src_branch b)
          (tail_of (b1 :: a) ++ r) (place_tail (p ++ src_branch b) (b1 :: a))
          ((p ++ src_branch b) ++ tail_of (b1 :: a)) r tt ltac:(lia) Hbe)).
      2:{ exists (b1 :: a). split; [assumption|]. auto 10. }
      rewrite Hsl. rewrite <- place_alternation_tail. cbn [place_tail].
      apply not_all_text in Ho. rewrite <- (contains_only_optional_place p) in Ho.
      destruct (contains_only_optional (place_alternation p (b :: b1 :: a))); [|easy].
      rewrite app_assoc, firstn_app_exact. unfold after. cbn [map_error fst snd].
      now rewrite app_nil_r.
Qed.

(** ** Single expressions *)
Lemma alternation_error_head s e : alternation_error s e -> ~ word_end s.
Proof.
  intros H Hw. destruct (proj2 (c_alternation_err_iff [] s)) as [e1 He].
  { now apply word_end_one_branch. }
  rewrite (proj2 (c_alternation_fail_iff [] s (after [] e))) in He by eauto. easy.
Qed.
Lemma parameter_error_head s e : parameter_error s e -> exists r, s = s_ "{" ++ r.
Proof. destruct 1; eexists; reflexivity. Qed.
Lemma one_branch_no_item_error s e : one_branch s -> item_error s e -> False.
Proof.
  intros (b & r & Hb & -> & Hr) He.
  assert (H : c_branch [] (src_branch b ++ r) = CFail (after [] e)).
  { apply c_branch_fail_iff. exists [], (src_branch b ++ r), e.
    split; [split; [constructor|exact I]|]. repeat split; auto.
    intros (l & y & Hy & _). now destruct l. }
  destruct b as [|x b].
  - cbn [src_branch map List.concat app] in *.
    apply (item_error_not_branch_end r e He). now apply word_end_branch_end.
  - rewrite (proj2 (c_branch_ok_iff [] _ (src_branch (x :: b)) r (place_branch [] (x :: b)))) in H.
    + easy.
    + exists (x :: b). split; [easy|]. split; [assumption|]. split; [reflexivity|].
      split; [now apply word_end_branch_end|]. auto.
Qed.
Lemma c_single_fail_iff p s ix e :
  c_single p s ix = CFail e <-> exists e', single_error s e' /\ e = after p e'.
Proof.
  unfold c_single. split.
  - destruct (c_alternation p s) as [q r a|e1|e1] eqn:Ea; [easy| |].
    + pose proof (proj1 (c_alternation_err_iff p s) (ex_intro _ _ Ea)) as Hone.
      destruct (c_optional p s) as [q r a|e2|e2] eqn:Eo; [easy| |].
      * destruct (c_parameter p s ix) as [q r a|e3|e3] eqn:Ep; [easy| |].
        -- destruct (c_text p s) as [q r a|e4|e4] eqn:Et; [easy| |].
           ++ destruct (c_whitespace p s) as [q r a|e5|e5] eqn:Ew; [easy|easy|].
              now apply c_whitespace_not_fail in Ew.
           ++ intros _. exfalso. apply c_text_fail_iff in Et as (e' & He & _).
              apply (one_branch_no_item_error s e'); [assumption|now right].
        -- intros H. apply fail_inj in H as ->.
           apply c_parameter_fail_iff in Ep as (e' & He & ->). exists e'. split; [now left|reflexivity].
      * intros _. exfalso. apply c_optional_fail_iff in Eo as (e' & He & _).
        apply (one_branch_no_item_error s e'); [assumption|now left].
    + intros H. apply fail_inj in H as ->.
      apply c_alternation_fail_iff in Ea as (e' & He & ->). exists e'. split; [now right|reflexivity].
  - intros (e' & [He|He] & ->).
    + destruct (parameter_error_head _ _ He) as [r Hs].
      destruct (proj2 (c_alternation_err_iff p s)) as [e1 ->].
      { subst s. apply word_end_one_branch. cbn. tauto. }
      destruct (proj2 (c_optional_err_iff p s)) as [e2 ->]; [now subst s|].
      rewrite (proj2 (c_parameter_fail_iff p s ix (after p e'))) by eauto. reflexivity.
    + rewrite (proj2 (c_alternation_fail_iff p s (after p e'))) by eauto. reflexivity.
Qed.

(** ** Expressions *)
(** What may follow a node, when the rest is broken. *)
Fixpoint all_rest_ok' (e : expression str) (s : str) : Prop :=
  match e with
  | [] => True
  | x :: e' => rest_ok x (source e' ++ s) /\ all_rest_ok' e' s
  end.
Lemma c_expr_fail_iff : forall fuel (p s : str) ix er, (List.length s < fuel)%nat ->
  (exists y, c_expr fuel p s ix = (y, CFail er)) <->
  exists e s' er', Forall wf_single e /\ all_rest_ok' e s' /\ ids_from ix e /\ s = source e ++ s' /\
            single_error s' er' /\ er = after (p ++ source e) er'.
Proof.
  induction fuel as [|fuel IH]; intros p s ix er Hf; [lia|]. cbn [c_expr]. split.
  - intros [y H]. destruct (c_single p s ix) as [q' r' x|e|e] eqn:E; [|easy|].
    + destruct (advances_shorter _ _ _ _ _ _ (c_single_advances ix) E) as [Hl _].
      destruct (c_expr fuel q' r' _) as [y' c] eqn:Ec. assert (c = CFail er) as -> by congruence.
      apply c_single_ok_iff in E as (x' & Hw & -> & Hr & Hid & -> & ->).
      fold (next_id (place_single p x') ix) in Ec. rewrite next_id_place in Ec.
      assert (Hlt : (List.length r' < fuel)%nat) by lia.
      destruct (proj1 (IH _ _ _ er Hlt) (ex_intro _ _ Ec))
        as (e & s' & er' & He1 & He2 & He3 & -> & Her & ->).
      exists (x' :: e), s', er'. rewrite source_cons, <- !app_assoc. repeat split; auto.
    + assert (e = er) as -> by congruence.
      apply c_single_fail_iff in E as (er' & Her & ->). exists [], s, er'.
      cbn [source map List.concat]. rewrite app_nil_r. repeat split; auto.
  - intros (e & s' & er' & He1 & He2 & He3 & -> & Her & ->). destruct e as [|x e].
    + cbn [source map List.concat app]. rewrite app_nil_r.
      rewrite (proj2 (c_single_fail_iff p s' ix (after p er'))) by eauto. eauto.
    + rewrite source_cons, <- app_assoc in *. inversion He1; subst. destruct He2 as [He2 He2'].
      destruct He3 as [He3 He3'].
      assert (E : c_single p (src_single x ++ source e ++ s') ix
                  = COk (p ++ src_single x) (source e ++ s') (place_single p x)).
      { apply c_single_ok_iff. exists x. repeat split; auto. }
      rewrite E. destruct (advances_shorter _ _ _ _ _ _ (c_single_advances ix) E) as [Hl _].
      fold (next_id (place_single p x) ix). rewrite next_id_place.
      destruct (proj2 (IH (p ++ src_single x) (source e ++ s') (next_id x ix)
         (after (p ++ src_single x ++ source e) er') ltac:(lia))) as [y ->]; [|eauto].
      exists e, s', er'. rewrite <- !app_assoc. repeat split; auto.
Qed.

Definition last_ok (e : expression str) (s : str) : Prop :=
  forall l y, e = l ++ [y] -> rest_ok y s.
Lemma last_ok_cons x e s : last_ok (x :: e) s <-> match e with [] => rest_ok x s | _ => last_ok e s end.
Proof.
  unfold last_ok. destruct e as [|y e].
  - split; [intros H; now apply (H [])|]. intros H l z Hz. destruct l as [|u l].
    + now injection Hz as ->.
    + injection Hz as _ Hz. now destruct l.
  - split.
    + intros H l z Hz. apply (H (x :: l)). now rewrite Hz.
    + intros H l z Hz. destruct l as [|u l]; [easy|]. injection Hz as _ Hz. eauto.
Qed.

Lemma one_branch_before s : forall e, e <> [] -> Forall wf_single e -> linked may_follow e ->
  last_ok e s -> match e with ExAlternation _ :: _ => False | _ => True end ->
  exists b r, items_ok b /\ source e ++ s = src_branch b ++ r /\ word_end r /\
    match b, e with
    | AltText _ :: _, ExText _ :: _ => True
    | AltText _ :: _, _ => False
    | _, _ => True
    end.
Proof.
  induction e as [|x e IH]; intros Hne Hw Hl Hlast Hh; [easy|]. clear Hne.
  inversion Hw as [|? ? Hx Hw']; subst. destruct Hl as [Hl1 Hl2].
  rewrite last_ok_cons in Hlast. rewrite source_cons.
  destruct x as [a|[t]|[t i]|t|w]; [easy|..].
  - assert (Hex : exists b r, items_ok b /\ source e ++ s = src_branch b ++ r /\ word_end r).
    { destruct e as [|y e].
      - destruct Hlast as (b & r & H1 & H2 & H3). exists b, r. auto.
      - destruct (IH ltac:(easy) Hw' Hl2 Hlast) as (b & r & H1 & H2 & H3 & _); [now destruct y|].
        exists b, r. auto. }
    destruct Hex as (b & r & [Hb1 Hb2] & Hs & Hr).
    exists (AltOptional (mkOptional t) :: b), r. rewrite <- app_assoc, Hs, src_branch_cons.
    split; [|split; [now rewrite <- app_assoc|auto]].
    split; [now constructor|]. cbn. split; [|assumption]. destruct b; [easy|]. now intros [].
  - exists [], (source (ExParameter (mkParameter t i) :: e) ++ s).
    split; [split; [constructor|exact I]|]. repeat split.
    rewrite source_cons, <- app_assoc. now apply not_item_word_end.
  - assert (Hex : exists b r, items_ok b /\ source e ++ s = src_branch b ++ r /\ word_end r /\
              match b with AltText _ :: _ => False | _ => True end).
    { destruct e as [|y e].
      - destruct Hlast as [Hends (b & r & H1 & H2 & H3)]. exists b, r. split; [assumption|].
        split; [exact H2|]. split; [assumption|]. destruct b as [|[|t'] b]; [easy..|].
        destruct H1 as [H1 _]. inversion H1; subst. rewrite src_branch_cons, <- app_assoc in Hends.
        apply ends_app_alternative in Hends; [now apply Hends|assumption].
      - destruct (IH ltac:(easy) Hw' Hl2 Hlast) as (b & r & H1 & H2 & H3 & H4); [now destruct y|].
        exists b, r. split; [assumption|]. split; [exact H2|]. split; [assumption|].
        destruct b as [|[|t'] b]; [easy..|]. now destruct y. }
    destruct Hex as (b & r & [Hb1 Hb2] & Hs & Hr & Hm).
    exists (AltText t :: b), r. rewrite <- app_assoc, Hs, src_branch_cons.
    split; [|split; [now rewrite <- app_assoc|auto]].
    split; [now constructor|]. cbn. split; [|assumption].
    destruct b as [|[|t'] b]; [easy| |easy]. now intros [].
  - exists [], (source (ExWhitespaces w :: e) ++ s).
    split; [split; [constructor|exact I]|]. repeat split.
    rewrite source_cons, <- app_assoc. now apply not_item_word_end.
Qed.

Lemma adjacency' e s : Forall wf_single e ->
  all_rest_ok' e s <-> linked may_follow e /\ last_ok e s.
Proof.
  intros He. split.
  - induction e as [|x e IH].
    { intros _. split; [exact I|]. intros l y H. now destruct l. }
    inversion He as [|? ? Hx He']; subst. cbn [all_rest_ok' linked].
    rewrite last_ok_cons. intros [Hr Ha]. destruct (IH He' Ha) as [IH1 IH2].
    split; [|now destruct e]. split; [|assumption]. clear IH IH1 IH2 Ha.
    destruct e as [|y e]; [easy|].
    rewrite source_cons, <- app_assoc in Hr. inversion He' as [|? ? Hy _]; subst.
    destruct x as [a|o|p|t|w], y as [a'|o'|p'|t'|w']; cbn [may_follow]; auto; cbn [rest_ok] in Hr.
    + now apply starts_item_not_word_end in Hr.
    + now apply starts_item_not_word_end in Hr.
    + now apply starts_item_not_word_end in Hr.
    + now apply not_one_branch_alternation in Hr.
    + now apply (not_one_branch_alternation a' (source e ++ s) Hy).
    + destruct Hr as [Hr _]. exact (proj1 (ends_app_alternative (AltText t') (source e ++ s) Hy) Hr I).
    + destruct Hy as [Hn Hy]. destruct w' as [|c w']; [easy|]. inversion Hy; subst. easy.
  - induction e as [|x e IH]; [easy|]. inversion He as [|? ? Hx He']; subst.
    rewrite last_ok_cons. cbn [all_rest_ok' linked].
    intros [[Hf Hl] Hlast]. destruct e as [|y e]; [split; [exact Hlast|exact I]|].
    split; [|auto]. clear IH.
    destruct x as [a|o|p|t|w]; cbn [rest_ok].
    + rewrite source_cons, <- app_assoc. inversion He'; subst.
      apply not_item_word_end; [assumption|]. now destruct y.
    + destruct (one_branch_before s (y :: e) ltac:(easy) He' Hl Hlast) as (b & r & H1 & H2 & H3 & _);
        [now destruct y|].
      exists b, r. auto.
    + exact I.
    + destruct (one_branch_before s (y :: e) ltac:(easy) He' Hl Hlast) as (b & r & H1 & H2 & H3 & H4);
        [now destruct y|].
      split; [|exists b, r; auto]. rewrite H2. destruct b as [|z b].
      * cbn. now apply branch_end_ends, word_end_branch_end.
      * destruct H1 as [H1 _]. inversion H1; subst. rewrite src_branch_cons, <- app_assoc.
        apply ends_app_alternative; [assumption|]. destruct z as [|t']; [easy|]. now destruct y.
    + rewrite source_cons, <- app_assoc. inversion He' as [|? ? Hy _]; subst.
      destruct y as [a|[t]|[t i]|t|w'].
      * destruct (src_head_alternation a (source e ++ s) Hy) as (b & r' & [Hb _] & Hn & Hs).
        rewrite Hs. destruct b as [|z b]; [easy|]. inversion Hb; subst.
        rewrite src_branch_cons, <- app_assoc.
        pose proof (not_branch_end_alternative z (src_branch b ++ c_ "/" :: r')) as H.
        destruct (src_alternative z ++ _) as [|c s1]; [easy|]. intros ->. apply H; [assumption|].
        cbn. tauto.
      * easy.
      * easy.
      * destruct (text_head t (source e ++ s) Hy) as (c & t' & H & Hn). cbn [src_single]. rewrite H.
        intros ->. apply Hn. cbn. tauto.
      * easy.
Qed.

Lemma single_error_rest_ok s er y : single_error s er ->
  (rest_ok y s <-> match y with
                   | ExParameter _ | ExWhitespaces _ => True
                   | _ => starts_with_in (s_ "{") s
                   end).
Proof.
  intros H.
  assert (Hsw : one_branch s -> starts_with_in (s_ "{") s).
  { intros Ho. destruct H as [H|H].
    - apply parameter_error_head in H as [r ->]. exists (c_ "{"), r. cbn. auto.
    - exfalso. destruct (proj2 (c_alternation_err_iff [] s) Ho) as [e1 He].
      rewrite (proj2 (c_alternation_fail_iff [] s (after [] er))) in He by eauto. easy. }
  assert (Hws : starts_with_in (s_ "{") s -> word_end s).
  { intros (c & r & -> & Hc). cbn in Hc. destruct Hc as [<-|[]]. cbn. tauto. }
  destruct y as [a|o|p|t|w]; cbn [rest_ok].
  - split; [intros; now apply Hsw, word_end_one_branch|assumption].
  - split; [assumption|intros; now apply word_end_one_branch, Hws].
  - easy.
  - split; [intros [_ Ho]; auto|]. intros Hs. split.
    + now apply branch_end_ends, word_end_branch_end, Hws.
    + now apply word_end_one_branch, Hws.
  - split; [easy|]. intros _. destruct s as [|c s]; [easy|]. intros ->. destruct H as [H|H].
    + now apply parameter_error_head in H as [r Hr].
    + apply alternation_error_head in H. apply H. cbn. tauto.
Qed.

(** Numbers of the parameters do not matter for errors. *)
Fixpoint renumber (ix : N) (e : expression str) : expression str :=
  match e with
  | [] => []
  | ExParameter p :: e' => ExParameter (mkParameter (par_input p) ix) :: renumber (ix + 1) e'
  | x :: e' => x :: renumber ix e'
  end.
Lemma renumber_source : forall e ix, source (renumber ix e) = source e.
Proof.
  induction e as [|x e IH]; intros ix; [reflexivity|].
  destruct x; cbn [renumber]; rewrite !source_cons, IH; reflexivity.
Qed.
Lemma renumber_wf : forall e ix, Forall wf_single e -> Forall wf_single (renumber ix e).
Proof.
  induction e as [|x e IH]; intros ix H; [constructor|]. inversion H; subst.
  destruct x; cbn [renumber]; constructor; auto.
Qed.
Lemma renumber_ids : forall e ix, ids_from ix (renumber ix e).
Proof.
  induction e as [|x e IH]; intros ix; [exact I|].
  destruct x; cbn [renumber ids_from]; (split; [reflexivity|]); apply IH.
Qed.
Lemma renumber_rest : forall e ix s, all_rest_ok' e s -> all_rest_ok' (renumber ix e) s.
Proof.
  induction e as [|x e IH]; intros ix s; [easy|]. intros [H1 H2].
  destruct x; cbn [renumber all_rest_ok']; rewrite renumber_source; auto.
Qed.

Lemma expression_error_iff s er :
  expression_error s er <->
  exists e s' er', Forall wf_single e /\ all_rest_ok' e s' /\ ids_from 0 e /\ s = source e ++ s' /\
            single_error s' er' /\ er = after (source e) er'.
Proof.
  split.
  - intros [x s' er' Hx Hf Hlast Her].
    exists (renumber 0 x), s', er'. rewrite renumber_source.
    split; [now apply renumber_wf|]. split; [|split; [apply renumber_ids|auto]].
    apply renumber_rest. apply adjacency'; [assumption|]. split; [now apply linked_iff|].
    intros l y Hy. apply (single_error_rest_ok s' er'); [assumption|]. now apply (Hlast l).
  - intros (e & s' & er' & H1 & H2 & H3 & -> & Her & ->).
    apply adjacency' in H2 as [H2 H4]; [|assumption].
    constructor; auto; [now apply linked_iff|].
    intros l y Hy. apply (single_error_rest_ok s' er'); [assumption|]. now apply (H4 l).
Qed.

Theorem parse_expression_error_iff o l s er :
  N.of_nat (List.length s) <= usize_max ->
  parse_expression (mkspan o l s) = Bad (BFailure er) <->
  exists e, expression_error s e /\ er = locate_error o l e.
Proof.
  intros Hlen. unfold parse_expression, many0.
  replace (mkspan o l s) with (at_ o l [] s) by (unfold at_, span_at; cbn; f_equal; lia).
  rewrite frag_at, many0_at by lia.
  setoid_rewrite expression_error_iff.
  destruct (c_expr (S (List.length s)) [] s 0) as [x c] eqn:E.
  pose proof (c_expr_fail_iff (S (List.length s)) [] s 0) as HF. cbn [app] in HF.
  split.
  - destruct c as [q r u|e|e]; cbn [lift]; [easy..|]. intros H.
    assert (er = locate_error o l e) by now injection H.
    exists e. split; [|assumption]. apply HF; [lia|eauto].
  - intros (e & He & ->). apply HF in He as [y He]; [|lia]. rewrite E in He.
    injection He as _ ->. reflexivity.
Qed.
Theorem parse_expression_total o l s :
  N.of_nat (List.length s) <= usize_max ->
  (exists rest out, parse_expression (mkspan o l s) = Ok rest out) \/
  (exists er, parse_expression (mkspan o l s) = Bad (BFailure er)).
Proof.
  intros Hlen. unfold parse_expression, many0.
  replace (mkspan o l s) with (at_ o l [] s) by (unfold at_, span_at; cbn; f_equal; lia).
  rewrite frag_at, many0_at by lia.
  destruct (c_expr (S (List.length s)) [] s 0) as [x [q r u|e|e]] eqn:E; cbn [lift]; eauto.
  now apply c_expr_not_err in E; [|lia].
Qed.
