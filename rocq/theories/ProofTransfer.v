(** A parser on views does what it does on what is viewed: ProofGeneric.v with any input type for spans. *)
From Verif Require Export SpecLines.
Section Hom.
  Context {K J : Type} (base : input_ops K) (ops : input_ops J) (h : K -> J).
  Context (H : view base ops h).

  Notation hbad := (gmap_bad h).
  Notation hres := (gmap_result h).
  Definition alike {A B} (f : A -> B) (q : J -> gresult J B) (p : (K -> gresult K A)) : Prop :=
    forall i, q (h i) = hres f (p i).

  Lemma append_alike i k e : append_in (h i) k (map_error h e) = map_error h (append_in i k e).
  Proof. now destruct e. Qed.
  Lemma split_alike i n : split_result_in ops (h i) n = hres h (split_result_in base i n).
  Proof. unfold split_result_in. rewrite (view_take_split _ _ _ H). now destruct (g_take_split base i n) as [[a b]|]. Qed.
  Lemma tag_alike t : alike h (tag_in ops t) (tag_in base t).
  Proof.
    intros i. unfold tag_in. rewrite (view_elements _ _ _ H). destruct (starts_with t (g_elements base i)); [apply split_alike|reflexivity].
  Qed.
  Lemma one_of_alike l : alike (fun c => c) (one_of_in ops l) (one_of_in base l).
  Proof.
    intros i. unfold one_of_in. rewrite (view_elements _ _ _ H). destruct (g_elements base i) as [|c s]; [reflexivity|].
    destruct (contains l c); [|reflexivity]. rewrite (view_take_from _ _ _ H). now destruct (g_take_from base i (len_utf8 c)).
  Qed.
  Lemma take_while_alike f : alike h (take_while_in ops f) (take_while_in base f).
  Proof.
    intros i. unfold take_while_in. rewrite (view_elements _ _ _ H), (view_len _ _ _ H).
    destruct (find_bytes _ _); apply split_alike.
  Qed.
  Lemma take_while1_alike f : alike h (take_while1_in ops f) (take_while1_in base f).
  Proof.
    intros i. unfold take_while1_in. rewrite (view_elements _ _ _ H), (view_len _ _ _ H).
    destruct (find_bytes _ _) as [n|]; [destruct (n =? 0)|destruct (g_len base i =? 0)]; try reflexivity; apply split_alike.
  Qed.
  Lemma map_alike {A B A' B'} (f : A -> B) (f' : A' -> B') (u : A -> A') (v : B -> B') q p :
    alike f q p -> (forall a, v (f a) = f' (u a)) -> alike f' (map_parser_in q v) (map_parser_in p u).
  Proof. intros Hp E i. unfold map_parser_in. rewrite Hp. destruct (p i); cbn; [now rewrite E|reflexivity]. Qed.
  Lemma verify_alike {A B} (f : A -> B) q p ok ok' : alike f q p -> (forall a, ok' (f a) = ok a) -> alike f (verify_in q ok') (verify_in p ok).
  Proof. intros Hp E i. unfold verify_in. rewrite Hp. destruct (p i); cbn; [rewrite E; now destruct (ok out)|reflexivity]. Qed.
  Lemma peek_alike {A B} (f : A -> B) q p : alike f q p -> alike f (peek_in q) (peek_in p).
  Proof. intros Hp i. unfold peek_in. rewrite Hp. now destruct (p i). Qed.
  Lemma bind_alike {A B C D} (f : A -> C) (g : B -> D) r' r k' k : r' = hres f r -> (forall i a, k' (h i) (f a) = hres g (k i a)) ->
    bind_in r' k' = hres g (bind_in r k).
  Proof. intros -> Hk. destruct r; [apply Hk|reflexivity]. Qed.

  Definition alike_st {S A B} (f : A -> B) (q : J -> S -> gresult J B * S) (p : K -> S -> gresult K A * S) : Prop :=
    forall i st, q (h i) st = (hres f (fst (p i st)), snd (p i st)).
  Lemma pure_alike {S A B} (f : A -> B) q p : alike f q p -> alike_st (S := S) f (pure_in q) (pure_in p).
  Proof. intros Hp i st. unfold pure_in. now rewrite Hp. Qed.
  Lemma alt_from_alike {S A B} (f : A -> B) (qs : list (J -> S -> gresult J B * S)) ps : Forall2 (alike_st f) qs ps ->
    forall e i st, alt_from_in qs (map_error h e) (h i) st = (hres f (fst (alt_from_in ps e i st)), snd (alt_from_in ps e i st)).
  Proof.
    induction 1 as [|q p qs ps Hq _ IH]; intros e i st; cbn [alt_from_in].
    - cbn. now rewrite append_alike.
    - rewrite Hq. destruct (p i st) as [[r a|[]] st']; try reflexivity. apply IH.
  Qed.
  Lemma alt_alike {S A B} (f : A -> B) (qs : list (J -> S -> gresult J B * S)) ps : Forall2 (alike_st f) qs ps ->
    alike_st f (alt_in qs) (alt_in ps).
  Proof.
    intros Hp i st. unfold alt_in. destruct Hp as [|q p qs ps Hq Hs]; [reflexivity|].
    rewrite Hq. destruct (p i st) as [[r a|[]] st']; try reflexivity. now apply alt_from_alike.
  Qed.
  Lemma many0_loop_alike {S A B} (f : A -> B) (q : J -> S -> gresult J B * S) p : alike_st f q p ->
    forall fuel acc i st, many0_loop_in ops fuel q (map f acc) (h i) st =
      (hres (map f) (fst (many0_loop_in base fuel p acc i st)), snd (many0_loop_in base fuel p acc i st)).
  Proof.
    intros Hp. induction fuel as [|fuel IH]; intros acc i st; cbn [many0_loop_in]; [reflexivity|].
    rewrite Hp. destruct (p i st) as [[r a|[]] st']; try reflexivity.
    - cbn. rewrite !(view_len _ _ _ H). destruct (g_len base r =? g_len base i); [reflexivity|]. apply (IH (a :: acc)).
    - cbn. now rewrite map_rev.
  Qed.
  Lemma many0_alike {S A B} (f : A -> B) (q : J -> S -> gresult J B * S) p : alike_st f q p ->
    alike_st (map f) (many0_in ops q) (many0_in base p).
  Proof. intros Hp i st. unfold many0_in. rewrite (view_elements _ _ _ H). now apply (many0_loop_alike f q p Hp _ []). Qed.
  Lemma many1_loop_alike {A B} (f : A -> B) q p : alike f q p ->
    forall fuel acc i, many1_loop_in ops fuel q (map f acc) (h i) = hres (map f) (many1_loop_in base fuel p acc i).
  Proof.
    intros Hp. induction fuel as [|fuel IH]; intros acc i; cbn [many1_loop_in]; [reflexivity|].
    rewrite Hp. destruct (p i) as [r a|[]]; try reflexivity.
    - cbn. rewrite !(view_len _ _ _ H). destruct (g_len base r =? g_len base i); [reflexivity|]. apply (IH (a :: acc)).
    - cbn. now rewrite map_rev.
  Qed.
  Lemma many1_alike {A B} (f : A -> B) q p : alike f q p -> alike (map f) (many1_in ops q) (many1_in base p).
  Proof.
    intros Hp i. unfold many1_in. rewrite Hp. destruct (p i) as [r a|[]]; try reflexivity.
    - cbn [gmap_result]. rewrite (view_elements _ _ _ H). now apply (many1_loop_alike f q p Hp _ [a]).
    - cbn. now rewrite append_alike.
  Qed.
  Lemma separated_loop_alike {A B C D} (g : C -> D) s s' (f : A -> B) q p : alike g s' s -> alike f q p ->
    forall fuel acc i, separated_list1_loop_in ops fuel s' q (map f acc) (h i) = hres (map f) (separated_list1_loop_in base fuel s p acc i).
  Proof.
    intros Hs Hp. induction fuel as [|fuel IH]; intros acc i; cbn [separated_list1_loop_in]; [reflexivity|].
    rewrite Hs. destruct (s i) as [r a|[]]; try reflexivity; [|cbn; now rewrite map_rev].
    cbn. rewrite Hp. destruct (p r) as [r' a'|[]]; try reflexivity; [|cbn; now rewrite map_rev].
    cbn. rewrite !(view_len _ _ _ H). destruct (g_len base r' =? g_len base i); [reflexivity|]. apply (IH (a' :: acc)).
  Qed.
  Lemma separated_alike {A B C D} (g : C -> D) s s' (f : A -> B) q p : alike g s' s -> alike f q p ->
    alike (map f) (separated_list1_in ops s' q) (separated_list1_in base s p).
  Proof.
    intros Hs Hp i. unfold separated_list1_in. rewrite Hp. destruct (p i) as [r a|[]]; try reflexivity.
    cbn [gmap_result]. rewrite (view_elements _ _ _ H). now apply (separated_loop_alike g s s' f q p Hs Hp _ [a]).
  Qed.
  Lemma map_err_alike {A B} (f : A -> B) q p g' g i : q (h i) = hres f (p i) -> (forall b, p i = GBad b -> g' (hbad b) = hbad (g b)) ->
    map_err_in q g' (h i) = hres f (map_err_in p g i).
  Proof. intros Hp Hg. unfold map_err_in. rewrite Hp. destruct (p i) as [r a|[]]; try reflexivity; cbn; rewrite <- Hg; reflexivity. Qed.
  Lemma whole_alike i : whole_in ops (h i) = hres h (whole_in base i).
  Proof. unfold whole_in. rewrite (view_len _ _ _ H), (view_take_from _ _ _ H). now destruct (g_take_from base i (g_len base i)). Qed.
  Lemma escaped0_loop_alike {A B C D} (f : A -> C) (g : B -> D) n n' c e e' : alike f n' n -> alike g e' e ->
    forall fuel input i cn, escaped0_loop_in ops fuel n' c e' (h input) (h i) cn = hres h (escaped0_loop_in base fuel n c e input i cn).
  Proof.
    intros Hn He. induction fuel as [|fuel IH]; intros input i cn; cbn [escaped0_loop_in];
      rewrite (view_len _ _ _ H); destruct (g_len base i =? 0); try reflexivity; try apply whole_alike.
    rewrite Hn.
    match goal with |- _ = hres h (match _ with GOk _ _ => if cn then ?x else _ | _ => _ end) => set (esc := x) end.
    match goal with |- match hres f (n i) with GOk _ _ => if cn then ?x else _ | _ => _ end = _ =>
      assert (Hesc : x = hres h esc) end.
    { unfold esc. rewrite (view_elements _ _ _ H). destruct (g_elements base i) as [|d r]; [reflexivity|].
      destruct (d =? c).
      - destruct (g_len base i <=? len_utf8 c); [reflexivity|].
        rewrite (view_take_from _ _ _ H). destruct (g_take_from base i (len_utf8 c)) as [i'|]; [|reflexivity]. cbn [option_map].
        rewrite He. destruct (e i') as [i2 a|[]]; try reflexivity. cbn [gmap_result]. rewrite (view_len _ _ _ H).
        destruct (g_len base i2 =? 0); [apply whole_alike|apply IH].
      - rewrite (view_offset _ _ _ H). destruct (g_offset base input i); [apply split_alike|reflexivity]. }
    destruct (n i) as [i2 a|[]]; cbn [gmap_result gmap_bad]; try exact Hesc; try reflexivity. destruct cn; [exact Hesc|].
    rewrite (view_len _ _ _ H). destruct (g_len base i2 =? 0); [apply whole_alike|apply IH].
  Qed.
  Lemma fail_take_alike e' e i n : (forall s, e' (h s) = map_error h (e s)) -> fail_take_in ops e' (h i) n = hbad (fail_take_in base e i n).
  Proof. intros E. unfold fail_take_in. rewrite (view_take _ _ _ H). destruct (g_take base i n); cbn; [now rewrite E|reflexivity]. Qed.
  Lemma escaped_error_alike b : escaped_error_in ops (hbad b) = hbad (escaped_error_in base b).
  Proof.
    destruct b as [[]| | | |]; try reflexivity. destruct k; try reflexivity.
    cbn [gmap_bad map_error escaped_error_in]. rewrite (view_len _ _ _ H), (view_slice_index _ _ _ H).
    destruct (g_len base i =? 1); [reflexivity|]. destruct (1 <? g_len base i); [|reflexivity]. now apply fail_take_alike.
  Qed.
  Lemma esc_alike q p : alike h q p -> alike h (escaped_reserved_chars0_in ops q) (escaped_reserved_chars0_in base p).
  Proof.
    intros Hp i. apply map_err_alike; [|intros; apply escaped_error_alike].
    unfold escaped0_in. rewrite (view_elements _ _ _ H). eapply escaped0_loop_alike; [exact Hp|apply one_of_alike].
  Qed.
  Lemma if_ok_alike {A B} (f : A -> B) r' r yes' yes no' no : r' = hres f r -> (forall a, yes' (f a) = hbad (yes a)) -> no' = hbad no ->
    if_ok_in r' yes' no' = hbad (if_ok_in r yes no).
  Proof. intros -> Hy ->. destruct r as [i a|[]]; cbn; try reflexivity. apply Hy. Qed.

  Lemma depth_alike d :
    (forall i ix, parameter_d_in ops d (h i) ix = (hres (map_parameter h) (fst (parameter_d_in base d i ix)), snd (parameter_d_in base d i ix))) /\
    (forall i, optional_d_in ops d (h i) = hres (map_optional h) (optional_d_in base d i)).
  Proof.
    induction d as [|d [IHp IHo]]; [split; reflexivity|]. split.
    - intros i ix. cbn [parameter_d_in]. rewrite tag_alike.
      destruct (tag_in base (s_ "{") i) as [i1 ob|b]; [|reflexivity]. cbn [gmap_result].
      rewrite (esc_alike _ _ (take_while_alike is_name)).
      destruct (escaped_reserved_chars0_in base (take_while_in base is_name) i1) as [i2 nm|b]; [|reflexivity]. cbn [gmap_result].
      match goal with |- match map_err_in _ ?g' _ with _ => _ end = (hres _ (fst (match map_err_in _ ?g _ with _ => _ end)), _) =>
        rewrite (map_err_alike h (tag_in ops (s_ "}")) (tag_in base (s_ "}")) g' g i2 (tag_alike _ i2)) end.
      { destruct (map_err_in _ _ i2); [|reflexivity]. cbn [gmap_result]. now destruct (usize_max <? ix + 1). }
      intros _ _. cbv beta. rewrite (view_elements _ _ _ H). destruct (g_elements base i2) as [|c r]; [reflexivity|].
      destruct (c =? c_ "{").
      + eapply if_ok_alike.
        * apply (bind_alike (map_parameter h) (map_parameter h)); [rewrite IHp; reflexivity|]. intros j a.
          apply (bind_alike h (map_parameter h)); [apply esc_alike, take_while_alike|]. intros j' a'.
          apply (bind_alike h (map_parameter h)); [apply tag_alike|]. reflexivity.
        * intros a. cbn [map_parameter par_input]. rewrite (view_len _ _ _ H). now apply fail_take_alike.
        * now apply fail_take_alike.
      + destruct (c =? c_ "(").
        * eapply if_ok_alike.
          -- apply (peek_alike (map_optional h)). exact IHo.
          -- intros a. cbn [map_optional opt_input]. rewrite (view_len _ _ _ H). now apply fail_take_alike.
          -- now apply fail_take_alike.
        * destruct (contains reserved_chars c); [now apply fail_take_alike|reflexivity].
    - intros i. cbn [optional_d_in]. rewrite tag_alike.
      destruct (tag_in base (s_ "(") i) as [i1 ob|b]; [|reflexivity]. cbn [gmap_result].
      rewrite (esc_alike _ _ (take_while_alike is_in_optional)).
      destruct (escaped_reserved_chars0_in base (take_while_in base is_in_optional) i1) as [i2 nm|b]; [|reflexivity]. cbn [gmap_result].
      match goal with |- match map_err_in _ ?g' _ with _ => _ end = hres _ (match map_err_in _ ?g _ with _ => _ end) =>
        rewrite (map_err_alike h (tag_in ops (s_ ")")) (tag_in base (s_ ")")) g' g i2 (tag_alike _ i2)) end.
      { destruct (map_err_in _ _ i2); [|reflexivity]. cbn [gmap_result]. rewrite (view_len _ _ _ H). destruct (g_len base nm =? 0); [|reflexivity].
        cbn [gmap_result]. f_equal. now apply fail_take_alike. }
      intros _ _. cbv beta. rewrite (view_elements _ _ _ H). destruct (g_elements base i2) as [|c r]; [reflexivity|].
      destruct (c =? c_ "(").
      + eapply if_ok_alike.
        * apply (bind_alike (map_optional h) (map_optional h)); [apply IHo|]. intros j a.
          apply (bind_alike h (map_optional h)); [apply esc_alike, take_while_alike|]. intros j' a'.
          apply (bind_alike h (map_optional h)); [apply tag_alike|]. reflexivity.
        * intros a. cbn [map_optional opt_input]. rewrite (view_len _ _ _ H). now apply fail_take_alike.
        * now apply fail_take_alike.
      + destruct (c =? c_ "{").
        * eapply if_ok_alike.
          -- apply (peek_alike (map_parameter h) (fun i => fst (parameter_d_in ops d i 0)) (fun i => fst (parameter_d_in base d i 0))).
             intros j. now rewrite IHp.
          -- intros a. cbn [map_parameter par_input]. rewrite (view_len _ _ _ H). now apply fail_take_alike.
          -- now apply fail_take_alike.
        * destruct (c =? c_ "/"); [now apply fail_take_alike|].
          destruct (contains reserved_chars c); [now apply fail_take_alike|reflexivity].
  Qed.

  Lemma parameter_alike i ix : parse_parameter_in ops (h i) ix = (hres (map_parameter h) (fst (parse_parameter_in base i ix)), snd (parse_parameter_in base i ix)).
  Proof. unfold parse_parameter_in. rewrite (view_elements _ _ _ H). apply depth_alike. Qed.
  Lemma optional_alike : alike (map_optional h) (parse_optional_in ops) (parse_optional_in base).
  Proof. intros i. unfold parse_optional_in. rewrite (view_elements _ _ _ H). apply depth_alike. Qed.
  Lemma text_alike : alike h
    (verify_in (escaped_reserved_chars0_in ops (take_while_in ops is_without_whitespace)) (fun p => 0 <? g_len ops p))
    (verify_in (escaped_reserved_chars0_in base (take_while_in base is_without_whitespace)) (fun p => 0 <? g_len base p)).
  Proof. apply verify_alike; [apply esc_alike, take_while_alike|]. intros a. now rewrite (view_len _ _ _ H). Qed.
  Lemma alternative_alike : alike (map_alternative h) (parse_alternative_in ops) (parse_alternative_in base).
  Proof.
    intros i. unfold parse_alternative_in. erewrite (alt_alike (map_alternative h)); [reflexivity|].
    constructor; [|constructor; [|constructor]]; apply pure_alike.
    - apply (map_alike (map_optional h) (map_alternative h)); [apply optional_alike|reflexivity].
    - apply (map_alike h (map_alternative h)); [apply text_alike|reflexivity].
  Qed.
  Lemma contains_only_map (a : alternation K) : contains_only_optional (map_alternation h a) = contains_only_optional a.
  Proof.
    unfold contains_only_optional, map_alternation. induction a as [|b a IH]; [reflexivity|]. cbn. rewrite IH. f_equal.
    induction b as [|x b IHb]; [reflexivity|]. cbn. rewrite IHb. now destruct x.
  Qed.
  Lemma span_len_map (a : alternation K) : span_len (g_len ops) (map_alternation h a) = span_len (g_len base) a.
  Proof.
    unfold span_len. assert (E : map (alternative_len (g_len ops)) (List.concat (map_alternation h a)) = map (alternative_len (g_len base)) (List.concat a)).
    { induction a as [|b a IH]; [reflexivity|]. cbn [map_alternation map List.concat]. rewrite !map_app. fold (map_alternation h a). rewrite IH. f_equal.
      rewrite map_map. apply map_ext. intros [o|t]; cbn; now rewrite (view_len _ _ _ H). }
    rewrite E. unfold map_alternation. rewrite map_length. reflexivity.
  Qed.
  Lemma alternation_alike : alike (map_alternation h) (parse_alternation_in ops) (parse_alternation_in base).
  Proof.
    intros i. unfold parse_alternation_in.
    rewrite (separated_alike h (tag_in base (s_ "/")) (tag_in ops (s_ "/")) (map (map_alternative h)) _ _
              (tag_alike (s_ "/")) (many1_alike (map_alternative h) _ _ alternative_alike)).
    assert (Hk : forall rest (a : alternation K),
      match hres (map_alternation h) (GOk rest a) with
      | GBad b => GBad b
      | GOk rest alts => if contains_only_optional alts
          then match span_len (g_len ops) alts with None => GBad GPanic | Some n => GBad (fail_take_in ops OnlyOptionalInAlternation (h i) n) end
          else GOk rest alts
      end = hres (map_alternation h)
        (if contains_only_optional a
         then match span_len (g_len base) a with None => GBad GPanic | Some n => GBad (fail_take_in base OnlyOptionalInAlternation i n) end
         else GOk rest a)).
    { intros rest a. cbn [gmap_result]. rewrite contains_only_map, span_len_map. destruct (contains_only_optional a); [|reflexivity].
      destruct (span_len (g_len base) a); [|reflexivity]. cbn [gmap_result]. f_equal. now apply fail_take_alike. }
    destruct (separated_list1_in base (tag_in base (s_ "/")) (many1_in base (parse_alternative_in base)) i) as [rest a|b]; cbn [gmap_result].
    - rewrite (peek_alike h _ _ (tag_alike (s_ "/"))). destruct (peek_in (tag_in base (s_ "/")) rest) as [r sl|[]]; cbn [gmap_result gmap_bad]; try reflexivity;
        (rewrite map_length; destruct (Nat.eqb (List.length a) 1); [reflexivity|]; exact (Hk rest a)).
    - destruct b as [[]| | | |]; try reflexivity. destruct k; try reflexivity. cbn [gmap_bad map_error].
      rewrite (peek_alike h _ _ (tag_alike (s_ "/"))). destruct (peek_in (tag_in base (s_ "/")) i0) as [r sl|[]]; cbn [gmap_result gmap_bad]; try reflexivity.
      f_equal. now apply fail_take_alike.
  Qed.
  Lemma single_expression_alike : alike_st (map_single h) (parse_single_expression_in ops) (parse_single_expression_in base).
  Proof.
    intros i ix. unfold parse_single_expression_in. apply (alt_alike (map_single h)).
    constructor; [|constructor; [|constructor; [|constructor; [|constructor; [|constructor]]]]]; try apply pure_alike.
    - apply (map_alike (map_alternation h) (map_single h)); [apply alternation_alike|reflexivity].
    - apply (map_alike (map_optional h) (map_single h)); [apply optional_alike|reflexivity].
    - intros j jx. rewrite parameter_alike. destruct (parse_parameter_in base j jx) as [[r p|b] jx']; reflexivity.
    - apply (map_alike h (map_single h)); [apply text_alike|reflexivity].
    - apply (map_alike h (map_single h)); [apply take_while1_alike|reflexivity].
  Qed.
  Lemma expression_alike : alike (map_expression h) (parse_expression_in ops) (parse_expression_in base).
  Proof.
    intros i. unfold parse_expression_in.
    rewrite (many0_alike (map_single h) _ _ single_expression_alike). reflexivity.
  Qed.
End Hom.
