(** The parsers on another input type do what they do on spans. *)
From Verif Require Export SpecGeneric ProofParse2.

Section Hom.
  Context {J : Type} (ops : input_ops J) (h : span -> J).
  Context (H : hom ops h).

  Notation hbad := (map_bad h).
  Notation hres := (map_result h).
  Definition alike {A B} (f : A -> B) (q : J -> gresult J B) (p : parser A) : Prop :=
    forall i, q (h i) = hres f (p i).

  Lemma append_alike i k e : append_in (h i) k (map_error h e) = map_error h (append i k e).
  Proof. now destruct e. Qed.
  Lemma split_alike i n : split_result_in ops (h i) n = hres h (split_result i n).
  Proof. unfold split_result_in, split_result. rewrite (hom_take_split _ _ H). now destruct (take_split i n) as [[a b]|]. Qed.
  Lemma tag_alike t : alike h (tag_in ops t) (tag t).
  Proof.
    intros i. unfold tag_in, tag. rewrite (hom_elements _ _ H). destruct (starts_with t (frag i)); [apply split_alike|reflexivity].
  Qed.
  Lemma one_of_alike l : alike (fun c => c) (one_of_in ops l) (one_of l).
  Proof.
    intros i. unfold one_of_in, one_of, iter_elements. rewrite (hom_elements _ _ H). destruct (frag i) as [|c s]; [reflexivity|].
    destruct (contains l c); [|reflexivity]. rewrite (hom_take_from _ _ H). now destruct (take_from i (len_utf8 c)).
  Qed.
  Lemma take_while_alike f : alike h (take_while_in ops f) (take_while f).
  Proof.
    intros i. unfold take_while_in, take_while. rewrite (hom_elements _ _ H), (hom_len _ _ H).
    destruct (find_bytes _ _); apply split_alike.
  Qed.
  Lemma take_while1_alike f : alike h (take_while1_in ops f) (take_while1 f).
  Proof.
    intros i. unfold take_while1_in, take_while1. rewrite (hom_elements _ _ H), (hom_len _ _ H).
    destruct (find_bytes _ _) as [n|]; [destruct (n =? 0)|destruct (input_len i =? 0)]; try reflexivity; apply split_alike.
  Qed.
  Lemma map_alike {A B A' B'} (f : A -> B) (f' : A' -> B') (u : A -> A') (v : B -> B') q p :
    alike f q p -> (forall a, v (f a) = f' (u a)) -> alike f' (map_parser_in q v) (map_parser p u).
  Proof. intros Hp E i. unfold map_parser_in, map_parser. rewrite Hp. destruct (p i); cbn; [now rewrite E|reflexivity]. Qed.
  Lemma verify_alike {A B} (f : A -> B) q p ok ok' : alike f q p -> (forall a, ok' (f a) = ok a) -> alike f (verify_in q ok') (verify p ok).
  Proof. intros Hp E i. unfold verify_in, verify. rewrite Hp. destruct (p i); cbn; [rewrite E; now destruct (ok out)|reflexivity]. Qed.
  Lemma peek_alike {A B} (f : A -> B) q p : alike f q p -> alike f (peek_in q) (peek p).
  Proof. intros Hp i. unfold peek_in, peek. rewrite Hp. now destruct (p i). Qed.
  Lemma bind_alike {A B C D} (f : A -> C) (g : B -> D) r' r k' k : r' = hres f r -> (forall i a, k' (h i) (f a) = hres g (k i a)) ->
    bind_in r' k' = hres g (bind r k).
  Proof. intros -> Hk. destruct r; [apply Hk|reflexivity]. Qed.

  Definition alike_st {S A B} (f : A -> B) (q : J -> S -> gresult J B * S) (p : span -> S -> result A * S) : Prop :=
    forall i st, q (h i) st = (hres f (fst (p i st)), snd (p i st)).
  Lemma pure_alike {S A B} (f : A -> B) q p : alike f q p -> alike_st (S := S) f (pure_in q) (pure p).
  Proof. intros Hp i st. unfold pure_in, pure. now rewrite Hp. Qed.
  Lemma alt_from_alike {S A B} (f : A -> B) (qs : list (J -> S -> gresult J B * S)) ps : Forall2 (alike_st f) qs ps ->
    forall e i st, alt_from_in qs (map_error h e) (h i) st = (hres f (fst (alt_from ps e i st)), snd (alt_from ps e i st)).
  Proof.
    induction 1 as [|q p qs ps Hq _ IH]; intros e i st; cbn [alt_from_in alt_from].
    - cbn. now rewrite append_alike.
    - rewrite Hq. destruct (p i st) as [[r a|[]] st']; try reflexivity. apply IH.
  Qed.
  Lemma alt_alike {S A B} (f : A -> B) (qs : list (J -> S -> gresult J B * S)) ps : Forall2 (alike_st f) qs ps ->
    alike_st f (alt_in qs) (alt ps).
  Proof.
    intros Hp i st. unfold alt_in, alt. destruct Hp as [|q p qs ps Hq Hs]; [reflexivity|].
    rewrite Hq. destruct (p i st) as [[r a|[]] st']; try reflexivity. now apply alt_from_alike.
  Qed.
  Lemma many0_loop_alike {S A B} (f : A -> B) (q : J -> S -> gresult J B * S) p : alike_st f q p ->
    forall fuel acc i st, many0_loop_in ops fuel q (map f acc) (h i) st =
      (hres (map f) (fst (many0_loop fuel p acc i st)), snd (many0_loop fuel p acc i st)).
  Proof.
    intros Hp. induction fuel as [|fuel IH]; intros acc i st; cbn [many0_loop_in many0_loop]; [reflexivity|].
    rewrite Hp. destruct (p i st) as [[r a|[]] st']; try reflexivity.
    - cbn. rewrite !(hom_len _ _ H). destruct (input_len r =? input_len i); [reflexivity|]. apply (IH (a :: acc)).
    - cbn. now rewrite map_rev.
  Qed.
  Lemma many0_alike {S A B} (f : A -> B) (q : J -> S -> gresult J B * S) p : alike_st f q p ->
    alike_st (map f) (many0_in ops q) (many0 p).
  Proof. intros Hp i st. unfold many0_in, many0. rewrite (hom_elements _ _ H). now apply (many0_loop_alike f q p Hp _ []). Qed.
  Lemma many1_loop_alike {A B} (f : A -> B) q p : alike f q p ->
    forall fuel acc i, many1_loop_in ops fuel q (map f acc) (h i) = hres (map f) (many1_loop fuel p acc i).
  Proof.
    intros Hp. induction fuel as [|fuel IH]; intros acc i; cbn [many1_loop_in many1_loop]; [reflexivity|].
    rewrite Hp. destruct (p i) as [r a|[]]; try reflexivity.
    - cbn. rewrite !(hom_len _ _ H). destruct (input_len r =? input_len i); [reflexivity|]. apply (IH (a :: acc)).
    - cbn. now rewrite map_rev.
  Qed.
  Lemma many1_alike {A B} (f : A -> B) q p : alike f q p -> alike (map f) (many1_in ops q) (many1 p).
  Proof.
    intros Hp i. unfold many1_in, many1. rewrite Hp. destruct (p i) as [r a|[]]; try reflexivity.
    - cbn [map_result]. rewrite (hom_elements _ _ H). now apply (many1_loop_alike f q p Hp _ [a]).
    - cbn. now rewrite append_alike.
  Qed.
  Lemma separated_loop_alike {A B C D} (g : C -> D) s s' (f : A -> B) q p : alike g s' s -> alike f q p ->
    forall fuel acc i, separated_list1_loop_in ops fuel s' q (map f acc) (h i) = hres (map f) (separated_list1_loop fuel s p acc i).
  Proof.
    intros Hs Hp. induction fuel as [|fuel IH]; intros acc i; cbn [separated_list1_loop_in separated_list1_loop]; [reflexivity|].
    rewrite Hs. destruct (s i) as [r a|[]]; try reflexivity; [|cbn; now rewrite map_rev].
    cbn. rewrite Hp. destruct (p r) as [r' a'|[]]; try reflexivity; [|cbn; now rewrite map_rev].
    cbn. rewrite !(hom_len _ _ H). destruct (input_len r' =? input_len i); [reflexivity|]. apply (IH (a' :: acc)).
  Qed.
  Lemma separated_alike {A B C D} (g : C -> D) s s' (f : A -> B) q p : alike g s' s -> alike f q p ->
    alike (map f) (separated_list1_in ops s' q) (separated_list1 s p).
  Proof.
    intros Hs Hp i. unfold separated_list1_in, separated_list1. rewrite Hp. destruct (p i) as [r a|[]]; try reflexivity.
    cbn [map_result]. rewrite (hom_elements _ _ H). now apply (separated_loop_alike g s s' f q p Hs Hp _ [a]).
  Qed.
  Lemma map_err_alike {A B} (f : A -> B) q p g' g i : q (h i) = hres f (p i) -> (forall b, p i = Bad b -> g' (hbad b) = hbad (g b)) ->
    map_err_in q g' (h i) = hres f (map_err p g i).
  Proof. intros Hp Hg. unfold map_err_in, map_err. rewrite Hp. destruct (p i) as [r a|[]]; try reflexivity; cbn; rewrite <- Hg; reflexivity. Qed.
  Lemma whole_alike i : whole_in ops (h i) = hres h (whole i).
  Proof. unfold whole_in, whole. rewrite (hom_len _ _ H), (hom_take_from _ _ H). now destruct (take_from i (input_len i)). Qed.
  Lemma escaped0_loop_alike {A B C D} (f : A -> C) (g : B -> D) n n' c e e' : alike f n' n -> alike g e' e ->
    forall fuel input i cn, escaped0_loop_in ops fuel n' c e' (h input) (h i) cn = hres h (escaped0_loop fuel n c e input i cn).
  Proof.
    intros Hn He. induction fuel as [|fuel IH]; intros input i cn; cbn [escaped0_loop_in escaped0_loop];
      rewrite (hom_len _ _ H); destruct (input_len i =? 0); try reflexivity; try apply whole_alike.
    rewrite Hn.
    match goal with |- _ = hres h (match _ with Ok _ _ => if cn then ?x else _ | _ => _ end) => set (esc := x) end.
    match goal with |- match hres f (n i) with GOk _ _ => if cn then ?x else _ | _ => _ end = _ =>
      assert (Hesc : x = hres h esc) end.
    { unfold esc, iter_elements. rewrite (hom_elements _ _ H). destruct (frag i) as [|d r]; [reflexivity|].
      destruct (d =? c).
      - destruct (input_len i <=? len_utf8 c); [reflexivity|].
        rewrite (hom_take_from _ _ H). destruct (take_from i (len_utf8 c)) as [i'|]; [|reflexivity]. cbn [option_map].
        rewrite He. destruct (e i') as [i2 a|[]]; try reflexivity. cbn [map_result]. rewrite (hom_len _ _ H).
        destruct (input_len i2 =? 0); [apply whole_alike|apply IH].
      - rewrite (hom_offset _ _ H). destruct (offset input i); [apply split_alike|reflexivity]. }
    destruct (n i) as [i2 a|[]]; cbn [map_result map_bad]; try exact Hesc; try reflexivity. destruct cn; [exact Hesc|].
    rewrite (hom_len _ _ H). destruct (input_len i2 =? 0); [apply whole_alike|apply IH].
  Qed.
  Lemma fail_take_alike e' e i n : (forall s, e' (h s) = map_error h (e s)) -> fail_take_in ops e' (h i) n = hbad (fail_take e i n).
  Proof. intros E. unfold fail_take_in, fail_take. rewrite (hom_take _ _ H). destruct (take i n); cbn; [now rewrite E|reflexivity]. Qed.
  Lemma escaped_error_alike b : escaped_error_in ops (hbad b) = hbad (escaped_error b).
  Proof.
    destruct b as [[]| | | |]; try reflexivity. destruct k; try reflexivity.
    cbn [map_bad map_error escaped_error_in escaped_error]. rewrite (hom_len _ _ H), (hom_slice_index _ _ H).
    destruct (input_len i =? 1); [reflexivity|]. destruct (1 <? input_len i); [|reflexivity]. now apply fail_take_alike.
  Qed.
  Lemma esc_alike q p : alike h q p -> alike h (escaped_reserved_chars0_in ops q) (escaped_reserved_chars0 p).
  Proof.
    intros Hp i. apply map_err_alike; [|intros; apply escaped_error_alike].
    unfold escaped0_in, escaped0. rewrite (hom_elements _ _ H). eapply escaped0_loop_alike; [exact Hp|apply one_of_alike].
  Qed.
  Lemma if_ok_alike {A B} (f : A -> B) r' r yes' yes no' no : r' = hres f r -> (forall a, yes' (f a) = hbad (yes a)) -> no' = hbad no ->
    if_ok_in r' yes' no' = hbad (if_ok r yes no).
  Proof. intros -> Hy ->. destruct r as [i a|[]]; cbn; try reflexivity. apply Hy. Qed.

  Lemma depth_alike d :
    (forall i ix, parameter_d_in ops d (h i) ix = (hres (map_parameter h) (fst (parameter_d d i ix)), snd (parameter_d d i ix))) /\
    (forall i, optional_d_in ops d (h i) = hres (map_optional h) (optional_d d i)).
  Proof.
    induction d as [|d [IHp IHo]]; [split; reflexivity|]. split.
    - intros i ix. cbn [parameter_d_in parameter_d]. rewrite tag_alike.
      destruct (tag (s_ "{") i) as [i1 ob|b]; [|reflexivity]. cbn [map_result].
      rewrite (esc_alike _ _ (take_while_alike is_name)).
      destruct (escaped_reserved_chars0 (take_while is_name) i1) as [i2 nm|b]; [|reflexivity]. cbn [map_result].
      match goal with |- match map_err_in _ ?g' _ with _ => _ end = (hres _ (fst (match map_err _ ?g _ with _ => _ end)), _) =>
        rewrite (map_err_alike h (tag_in ops (s_ "}")) (tag (s_ "}")) g' g i2 (tag_alike _ i2)) end.
      { destruct (map_err _ _ i2); [|reflexivity]. cbn [map_result]. now destruct (usize_max <? ix + 1). }
      intros _ _. cbv beta. unfold iter_elements. rewrite (hom_elements _ _ H). destruct (frag i2) as [|c r]; [reflexivity|].
      destruct (c =? c_ "{").
      + eapply if_ok_alike.
        * apply (bind_alike (map_parameter h) (map_parameter h)); [rewrite IHp; reflexivity|]. intros j a.
          apply (bind_alike h (map_parameter h)); [apply esc_alike, take_while_alike|]. intros j' a'.
          apply (bind_alike h (map_parameter h)); [apply tag_alike|]. reflexivity.
        * intros a. cbn [map_parameter par_input]. rewrite (hom_len _ _ H). now apply fail_take_alike.
        * now apply fail_take_alike.
      + destruct (c =? c_ "(").
        * eapply if_ok_alike.
          -- apply (peek_alike (map_optional h)). exact IHo.
          -- intros a. cbn [map_optional opt_input]. rewrite (hom_len _ _ H). now apply fail_take_alike.
          -- now apply fail_take_alike.
        * destruct (contains reserved_chars c); [now apply fail_take_alike|reflexivity].
    - intros i. cbn [optional_d_in optional_d]. rewrite tag_alike.
      destruct (tag (s_ "(") i) as [i1 ob|b]; [|reflexivity]. cbn [map_result].
      rewrite (esc_alike _ _ (take_while_alike is_in_optional)).
      destruct (escaped_reserved_chars0 (take_while is_in_optional) i1) as [i2 nm|b]; [|reflexivity]. cbn [map_result].
      match goal with |- match map_err_in _ ?g' _ with _ => _ end = hres _ (match map_err _ ?g _ with _ => _ end) =>
        rewrite (map_err_alike h (tag_in ops (s_ ")")) (tag (s_ ")")) g' g i2 (tag_alike _ i2)) end.
      { destruct (map_err _ _ i2); [|reflexivity]. cbn [map_result]. rewrite (hom_len _ _ H). destruct (input_len nm =? 0); [|reflexivity].
        cbn [map_result]. f_equal. now apply fail_take_alike. }
      intros _ _. cbv beta. unfold iter_elements. rewrite (hom_elements _ _ H). destruct (frag i2) as [|c r]; [reflexivity|].
      destruct (c =? c_ "(").
      + eapply if_ok_alike.
        * apply (bind_alike (map_optional h) (map_optional h)); [apply IHo|]. intros j a.
          apply (bind_alike h (map_optional h)); [apply esc_alike, take_while_alike|]. intros j' a'.
          apply (bind_alike h (map_optional h)); [apply tag_alike|]. reflexivity.
        * intros a. cbn [map_optional opt_input]. rewrite (hom_len _ _ H). now apply fail_take_alike.
        * now apply fail_take_alike.
      + destruct (c =? c_ "{").
        * eapply if_ok_alike.
          -- apply (peek_alike (map_parameter h) (fun i => fst (parameter_d_in ops d i 0)) (fun i => fst (parameter_d d i 0))).
             intros j. now rewrite IHp.
          -- intros a. cbn [map_parameter par_input]. rewrite (hom_len _ _ H). now apply fail_take_alike.
          -- now apply fail_take_alike.
        * destruct (c =? c_ "/"); [now apply fail_take_alike|].
          destruct (contains reserved_chars c); [now apply fail_take_alike|reflexivity].
  Qed.

  Lemma parameter_alike i ix : parse_parameter_in ops (h i) ix = (hres (map_parameter h) (fst (parse_parameter i ix)), snd (parse_parameter i ix)).
  Proof. unfold parse_parameter_in. rewrite (hom_elements _ _ H). apply depth_alike. Qed.
  Lemma optional_alike : alike (map_optional h) (parse_optional_in ops) parse_optional.
  Proof. intros i. unfold parse_optional_in. rewrite (hom_elements _ _ H). apply depth_alike. Qed.
  Lemma text_alike : alike h
    (verify_in (escaped_reserved_chars0_in ops (take_while_in ops is_without_whitespace)) (fun p => 0 <? g_len ops p))
    (verify (escaped_reserved_chars0 (take_while is_without_whitespace)) (fun p => 0 <? input_len p)).
  Proof. apply verify_alike; [apply esc_alike, take_while_alike|]. intros a. now rewrite (hom_len _ _ H). Qed.
  Lemma alternative_alike : alike (map_alternative h) (parse_alternative_in ops) parse_alternative.
  Proof.
    intros i. unfold parse_alternative_in, parse_alternative. erewrite (alt_alike (map_alternative h)); [reflexivity|].
    constructor; [|constructor; [|constructor]]; apply pure_alike.
    - apply (map_alike (map_optional h) (map_alternative h)); [apply optional_alike|reflexivity].
    - apply (map_alike h (map_alternative h)); [apply text_alike|reflexivity].
  Qed.
  Lemma contains_only_map (a : alternation span) : contains_only_optional (map_alternation h a) = contains_only_optional a.
  Proof.
    unfold contains_only_optional, map_alternation. induction a as [|b a IH]; [reflexivity|]. cbn. rewrite IH. f_equal.
    induction b as [|x b IHb]; [reflexivity|]. cbn. rewrite IHb. now destruct x.
  Qed.
  Lemma span_len_map (a : alternation span) : span_len (g_len ops) (map_alternation h a) = span_len input_len a.
  Proof.
    unfold span_len. assert (E : map (alternative_len (g_len ops)) (List.concat (map_alternation h a)) = map (alternative_len input_len) (List.concat a)).
    { induction a as [|b a IH]; [reflexivity|]. cbn [map_alternation map List.concat]. rewrite !map_app. fold (map_alternation h a). rewrite IH. f_equal.
      rewrite map_map. apply map_ext. intros [o|t]; cbn; now rewrite (hom_len _ _ H). }
    rewrite E. unfold map_alternation. rewrite map_length. reflexivity.
  Qed.
  Lemma alternation_alike : alike (map_alternation h) (parse_alternation_in ops) parse_alternation.
  Proof.
    intros i. unfold parse_alternation_in, parse_alternation.
    rewrite (separated_alike h (tag (s_ "/")) (tag_in ops (s_ "/")) (map (map_alternative h)) _ _
              (tag_alike (s_ "/")) (many1_alike (map_alternative h) _ _ alternative_alike)).
    assert (Hk : forall rest (a : alternation span),
      match hres (map_alternation h) (Ok rest a) with
      | GBad b => GBad b
      | GOk rest alts => if contains_only_optional alts
          then match span_len (g_len ops) alts with None => GBad GPanic | Some n => GBad (fail_take_in ops OnlyOptionalInAlternation (h i) n) end
          else GOk rest alts
      end = hres (map_alternation h)
        (if contains_only_optional a
         then match span_len input_len a with None => Bad BPanic | Some n => Bad (fail_take OnlyOptionalInAlternation i n) end
         else Ok rest a)).
    { intros rest a. cbn [map_result]. rewrite contains_only_map, span_len_map. destruct (contains_only_optional a); [|reflexivity].
      destruct (span_len input_len a); [|reflexivity]. cbn [map_result]. f_equal. now apply fail_take_alike. }
    destruct (separated_list1 (tag (s_ "/")) (many1 parse_alternative) i) as [rest a|b]; cbn [map_result].
    - rewrite (peek_alike h _ _ (tag_alike (s_ "/"))). destruct (peek (tag (s_ "/")) rest) as [r sl|[]]; cbn [map_result map_bad]; try reflexivity;
        (rewrite map_length; destruct (Nat.eqb (List.length a) 1); [reflexivity|]; exact (Hk rest a)).
    - destruct b as [[]| | | |]; try reflexivity. destruct k; try reflexivity. cbn [map_bad map_error].
      rewrite (peek_alike h _ _ (tag_alike (s_ "/"))). destruct (peek (tag (s_ "/")) i0) as [r sl|[]]; cbn [map_result map_bad]; try reflexivity.
      f_equal. now apply fail_take_alike.
  Qed.
  Lemma single_expression_alike : alike_st (map_single h) (parse_single_expression_in ops) parse_single_expression.
  Proof.
    intros i ix. unfold parse_single_expression_in, parse_single_expression. apply (alt_alike (map_single h)).
    constructor; [|constructor; [|constructor; [|constructor; [|constructor; [|constructor]]]]]; try apply pure_alike.
    - apply (map_alike (map_alternation h) (map_single h)); [apply alternation_alike|reflexivity].
    - apply (map_alike (map_optional h) (map_single h)); [apply optional_alike|reflexivity].
    - intros j jx. rewrite parameter_alike. destruct (parse_parameter j jx) as [[r p|b] jx']; reflexivity.
    - apply (map_alike h (map_single h)); [apply text_alike|reflexivity].
    - apply (map_alike h (map_single h)); [apply take_while1_alike|reflexivity].
  Qed.
  Lemma expression_alike : alike (map_expression h) (parse_expression_in ops) parse_expression.
  Proof.
    intros i. unfold parse_expression_in, parse_expression.
    rewrite (many0_alike (map_single h) _ _ single_expression_alike). reflexivity.
  Qed.
End Hom.
