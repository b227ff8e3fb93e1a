(** Operations that may panic more: the parsers do the same or panic. *)
From Verif Require Export ProofTransfer.
Section Below.
  Context {K J : Type} (base : input_ops K) (ops : input_ops J) (h : K -> J).
  Context (H : below base ops h).

  Notation hbad := (gmap_bad h).
  Notation hres := (gmap_result h).
  Definition upto {A B} (f : A -> B) (r' : gresult J B) (r : gresult K A) : Prop := r' = GBad GPanic \/ r' = hres f r.
  Definition uptob (b' : gbad J) (b : gbad K) : Prop := b' = GPanic \/ b' = hbad b.
  Definition under {A B} (f : A -> B) (q : J -> gresult J B) (p : K -> gresult K A) : Prop :=
    forall i, upto f (q (h i)) (p i).
  Ltac same := right; reflexivity.
  Ltac boom := left; reflexivity.

  Lemma split_under i n : upto h (split_result_in ops (h i) n) (split_result_in base i n).
  Proof.
    unfold split_result_in. destruct (below_take_split _ _ _ H i n) as [-> | ->]; [boom|].
    destruct (g_take_split base i n) as [[a b]|]; same.
  Qed.
  Lemma tag_under t : under h (tag_in ops t) (tag_in base t).
  Proof.
    intros i. unfold tag_in. rewrite (below_elements _ _ _ H). destruct (starts_with t (g_elements base i)); [apply split_under|same].
  Qed.
  Lemma one_of_under l : under (fun c => c) (one_of_in ops l) (one_of_in base l).
  Proof.
    intros i. unfold one_of_in. rewrite (below_elements _ _ _ H). destruct (g_elements base i) as [|c s]; [same|].
    destruct (contains l c); [|same]. destruct (below_take_from _ _ _ H i (len_utf8 c)) as [-> | ->]; [boom|].
    destruct (g_take_from base i (len_utf8 c)); same.
  Qed.
  Lemma take_while_under f : under h (take_while_in ops f) (take_while_in base f).
  Proof.
    intros i. unfold take_while_in. rewrite (below_elements _ _ _ H), (below_len _ _ _ H).
    destruct (find_bytes _ _); apply split_under.
  Qed.
  Lemma take_while1_under f : under h (take_while1_in ops f) (take_while1_in base f).
  Proof.
    intros i. unfold take_while1_in. rewrite (below_elements _ _ _ H), (below_len _ _ _ H).
    destruct (find_bytes _ _) as [n|]; [destruct (n =? 0)|destruct (g_len base i =? 0)]; try same; apply split_under.
  Qed.
  Lemma map_under {A B A' B'} (f : A -> B) (f' : A' -> B') (u : A -> A') (v : B -> B') q p :
    under f q p -> (forall a, v (f a) = f' (u a)) -> under f' (map_parser_in q v) (map_parser_in p u).
  Proof.
    intros Hp E i. unfold map_parser_in. destruct (Hp i) as [-> | ->]; [boom|]. right. destruct (p i); cbn; [now rewrite E|reflexivity].
  Qed.
  Lemma verify_under {A B} (f : A -> B) q p ok ok' : under f q p -> (forall a, ok' (f a) = ok a) -> under f (verify_in q ok') (verify_in p ok).
  Proof.
    intros Hp E i. unfold verify_in. destruct (Hp i) as [-> | ->]; [boom|]. right. destruct (p i); cbn; [rewrite E; now destruct (ok out)|reflexivity].
  Qed.
  Lemma peek_under {A B} (f : A -> B) q p : under f q p -> under f (peek_in q) (peek_in p).
  Proof. intros Hp i. unfold peek_in. destruct (Hp i) as [-> | ->]; [boom|]. destruct (p i); same. Qed.
  Lemma bind_under {A B C D} (f : A -> C) (g : B -> D) r' r k' k : upto f r' r -> (forall i a, upto g (k' (h i) (f a)) (k i a)) ->
    upto g (bind_in r' k') (bind_in r k).
  Proof. intros [-> | ->] Hk; [boom|]. destruct r; [apply Hk|same]. Qed.

  Definition upto_st {S A B} (f : A -> B) (r' : gresult J B * S) (r : gresult K A * S) : Prop :=
    fst r' = GBad GPanic \/ r' = (hres f (fst r), snd r).
  Definition under_st {S A B} (f : A -> B) (q : J -> S -> gresult J B * S) (p : K -> S -> gresult K A * S) : Prop :=
    forall i st, upto_st f (q (h i) st) (p i st).
  Lemma pure_under {S A B} (f : A -> B) q p : under f q p -> under_st (S := S) f (pure_in q) (pure_in p).
  Proof. intros Hp i st. unfold pure_in, upto_st. cbn. destruct (Hp i) as [-> | ->]; [boom|same]. Qed.
  Lemma alt_from_under {S A B} (f : A -> B) (qs : list (J -> S -> gresult J B * S)) ps : Forall2 (under_st f) qs ps ->
    forall e i st, upto_st f (alt_from_in qs (map_error h e) (h i) st) (alt_from_in ps e i st).
  Proof.
    induction 1 as [|q p qs ps Hq _ IH]; intros e i st; cbn [alt_from_in].
    - right. cbn. now destruct e.
    - destruct (Hq i st) as [E | E].
      + destruct (q (h i) st) as [r' st']. cbn in E. subst. boom.
      + rewrite E. destruct (p i st) as [[r a|[]] st']; try same. apply IH.
  Qed.
  Lemma alt_under {S A B} (f : A -> B) (qs : list (J -> S -> gresult J B * S)) ps : Forall2 (under_st f) qs ps ->
    under_st f (alt_in qs) (alt_in ps).
  Proof.
    intros Hp i st. unfold alt_in. destruct Hp as [|q p qs ps Hq Hs]; [same|].
    destruct (Hq i st) as [E | E].
    - destruct (q (h i) st) as [r' st']. cbn in E. subst. boom.
    - rewrite E. destruct (p i st) as [[r a|[]] st']; try same. now apply alt_from_under.
  Qed.
  Lemma many0_loop_under {S A B} (f : A -> B) (q : J -> S -> gresult J B * S) p : under_st f q p ->
    forall fuel acc i st, upto_st (map f) (many0_loop_in ops fuel q (map f acc) (h i) st) (many0_loop_in base fuel p acc i st).
  Proof.
    intros Hp. induction fuel as [|fuel IH]; intros acc i st; cbn [many0_loop_in]; [same|].
    destruct (Hp i st) as [E | E].
    - destruct (q (h i) st) as [r' st']. cbn in E. subst. boom.
    - rewrite E. destruct (p i st) as [[r a|[]] st']; try same.
      + cbn. rewrite !(below_len _ _ _ H). destruct (g_len base r =? g_len base i); [same|]. apply (IH (a :: acc)).
      + right. cbn. now rewrite map_rev.
  Qed.
  Lemma many0_under {S A B} (f : A -> B) (q : J -> S -> gresult J B * S) p : under_st f q p ->
    under_st (map f) (many0_in ops q) (many0_in base p).
  Proof. intros Hp i st. unfold many0_in. rewrite (below_elements _ _ _ H). now apply (many0_loop_under f q p Hp _ []). Qed.
  Lemma many1_loop_under {A B} (f : A -> B) q p : under f q p ->
    forall fuel acc i, upto (map f) (many1_loop_in ops fuel q (map f acc) (h i)) (many1_loop_in base fuel p acc i).
  Proof.
    intros Hp. induction fuel as [|fuel IH]; intros acc i; cbn [many1_loop_in]; [same|].
    destruct (Hp i) as [-> | ->]; [boom|]. destruct (p i) as [r a|[]]; try same.
    - cbn. rewrite !(below_len _ _ _ H). destruct (g_len base r =? g_len base i); [same|]. apply (IH (a :: acc)).
    - right. cbn. now rewrite map_rev.
  Qed.
  Lemma many1_under {A B} (f : A -> B) q p : under f q p -> under (map f) (many1_in ops q) (many1_in base p).
  Proof.
    intros Hp i. unfold many1_in. destruct (Hp i) as [-> | ->]; [boom|]. destruct (p i) as [r a|[]]; try same.
    - cbn [gmap_result]. rewrite (below_elements _ _ _ H). now apply (many1_loop_under f q p Hp _ [a]).
    - right. cbn. now destruct e.
  Qed.
  Lemma separated_loop_under {A B C D} (g : C -> D) s s' (f : A -> B) q p : under g s' s -> under f q p ->
    forall fuel acc i, upto (map f) (separated_list1_loop_in ops fuel s' q (map f acc) (h i)) (separated_list1_loop_in base fuel s p acc i).
  Proof.
    intros Hs Hp. induction fuel as [|fuel IH]; intros acc i; cbn [separated_list1_loop_in]; [same|].
    destruct (Hs i) as [-> | ->]; [boom|]. destruct (s i) as [r a|[]]; try same; [|right; cbn; now rewrite map_rev].
    cbn. destruct (Hp r) as [-> | ->]; [boom|]. destruct (p r) as [r' a'|[]]; try same; [|right; cbn; now rewrite map_rev].
    cbn. rewrite !(below_len _ _ _ H). destruct (g_len base r' =? g_len base i); [same|]. apply (IH (a' :: acc)).
  Qed.
  Lemma separated_under {A B C D} (g : C -> D) s s' (f : A -> B) q p : under g s' s -> under f q p ->
    under (map f) (separated_list1_in ops s' q) (separated_list1_in base s p).
  Proof.
    intros Hs Hp i. unfold separated_list1_in. destruct (Hp i) as [-> | ->]; [boom|]. destruct (p i) as [r a|[]]; try same.
    cbn [gmap_result]. rewrite (below_elements _ _ _ H). now apply (separated_loop_under g s s' f q p Hs Hp _ [a]).
  Qed.
  Lemma map_err_under {A B} (f : A -> B) q p g' g i : upto f (q (h i)) (p i) -> (forall b, p i = GBad b -> uptob (g' (hbad b)) (g b)) ->
    upto f (map_err_in q g' (h i)) (map_err_in p g i).
  Proof.
    intros Hp Hg. unfold map_err_in. destruct Hp as [-> | ->]; [boom|]. destruct (p i) as [r a|b]; [same|].
    destruct b; try same; (destruct (Hg _ eq_refl) as [E | E]; cbn in *; rewrite E; [boom|same]).
  Qed.
  Lemma whole_under i : upto h (whole_in ops (h i)) (whole_in base i).
  Proof.
    unfold whole_in. rewrite (below_len _ _ _ H). destruct (below_take_from _ _ _ H i (g_len base i)) as [-> | ->]; [boom|].
    destruct (g_take_from base i (g_len base i)); same.
  Qed.
  Lemma escaped0_loop_under {A B C D} (f : A -> C) (g : B -> D) n n' c e e' : under f n' n -> under g e' e ->
    forall fuel input i cn, upto h (escaped0_loop_in ops fuel n' c e' (h input) (h i) cn) (escaped0_loop_in base fuel n c e input i cn).
  Proof.
    intros Hn He. induction fuel as [|fuel IH]; intros input i cn; cbn [escaped0_loop_in];
      rewrite (below_len _ _ _ H); destruct (g_len base i =? 0); try same; try apply whole_under.
    match goal with |- upto h _ (match _ with GOk _ _ => if cn then ?x else _ | _ => _ end) => set (esc := x) end.
    match goal with |- upto h (match n' (h i) with GOk _ _ => if cn then ?x else _ | _ => _ end) _ =>
      assert (Hesc : upto h x esc) end.
    { unfold esc. rewrite (below_elements _ _ _ H). destruct (g_elements base i) as [|d r]; [same|].
      destruct (d =? c).
      - destruct (g_len base i <=? len_utf8 c); [same|].
        destruct (below_take_from _ _ _ H i (len_utf8 c)) as [-> | ->]; [boom|].
        destruct (g_take_from base i (len_utf8 c)) as [i'|]; [|same]. cbn [option_map].
        destruct (He i') as [-> | ->]; [boom|]. destruct (e i') as [i2 a|[]]; try same. cbn [gmap_result]. rewrite (below_len _ _ _ H).
        destruct (g_len base i2 =? 0); [apply whole_under|apply IH].
      - destruct (below_offset _ _ _ H input i) as [-> | ->]; [boom|].
        destruct (g_offset base input i); [apply split_under|same]. }
    destruct (Hn i) as [-> | ->]; [boom|].
    destruct (n i) as [i2 a|[]]; cbn [gmap_result gmap_bad]; try exact Hesc; try same. destruct cn; [exact Hesc|].
    rewrite (below_len _ _ _ H). destruct (g_len base i2 =? 0); [apply whole_under|apply IH].
  Qed.
  Lemma fail_take_under e' e i n : (forall s, e' (h s) = map_error h (e s)) -> uptob (fail_take_in ops e' (h i) n) (fail_take_in base e i n).
  Proof.
    intros E. unfold fail_take_in. destruct (below_take _ _ _ H i n) as [-> | ->]; [boom|]. right.
    destruct (g_take base i n); cbn; [now rewrite E|reflexivity].
  Qed.
  Lemma escaped_error_under b : uptob (escaped_error_in ops (hbad b)) (escaped_error_in base b).
  Proof.
    destruct b as [[]| | | |]; try same. destruct k; try same.
    cbn [gmap_bad map_error escaped_error_in]. rewrite (below_len _ _ _ H), (below_slice_index _ _ _ H).
    destruct (g_len base i =? 1); [same|]. destruct (1 <? g_len base i); [|same]. now apply fail_take_under.
  Qed.
  Lemma esc_under q p : under h q p -> under h (escaped_reserved_chars0_in ops q) (escaped_reserved_chars0_in base p).
  Proof.
    intros Hp i. apply map_err_under; [|intros; apply escaped_error_under].
    unfold escaped0_in. rewrite (below_elements _ _ _ H). eapply escaped0_loop_under; [exact Hp|apply one_of_under].
  Qed.
  Lemma if_ok_under {A B} (f : A -> B) r' r yes' yes no' no : upto f r' r -> (forall a, uptob (yes' (f a)) (yes a)) -> uptob no' no ->
    uptob (if_ok_in r' yes' no') (if_ok_in r yes no).
  Proof. intros [-> | ->] Hy Hn; [boom|]. destruct r as [i a|[]]; cbn; try same; try exact Hn. apply Hy. Qed.
  Lemma bad_under {A B} (f : A -> B) b' b : uptob b' b -> upto f (GBad b') (GBad b).
  Proof. intros [-> | ->]; [boom|same]. Qed.

  Lemma depth_under d :
    (forall i ix, upto_st (map_parameter h) (parameter_d_in ops d (h i) ix) (parameter_d_in base d i ix)) /\
    (forall i, upto (map_optional h) (optional_d_in ops d (h i)) (optional_d_in base d i)).
  Proof.
    induction d as [|d [IHp IHo]]; [split; intros; same|].
    assert (IHp' : forall i ix, upto (map_parameter h) (fst (parameter_d_in ops d (h i) ix)) (fst (parameter_d_in base d i ix))).
    { intros i ix. destruct (IHp i ix) as [E | E]; [left; exact E|right; now rewrite E]. }
    split.
    - intros i ix. cbn [parameter_d_in]. destruct (tag_under (s_ "{") i) as [-> | ->]; [boom|].
      destruct (tag_in base (s_ "{") i) as [i1 ob|b]; [|same]. cbn [gmap_result].
      destruct (esc_under _ _ (take_while_under is_name) i1) as [-> | ->]; [boom|].
      destruct (escaped_reserved_chars0_in base (take_while_in base is_name) i1) as [i2 nm|b]; [|same]. cbn [gmap_result].
      match goal with |- upto_st _ (match map_err_in _ ?g' _ with _ => _ end) (match map_err_in _ ?g _ with _ => _ end) =>
        destruct (map_err_under h (tag_in ops (s_ "}")) (tag_in base (s_ "}")) g' g i2 (tag_under _ i2)) as [-> | ->] end; [|boom|].
      2:{ destruct (map_err_in _ _ i2); [|same]. cbn [gmap_result]. destruct (usize_max <? ix + 1); same. }
      intros _ _. cbv beta. rewrite (below_elements _ _ _ H). destruct (g_elements base i2) as [|c r]; [same|].
      destruct (c =? c_ "{").
      + eapply if_ok_under.
        * apply (bind_under (map_parameter h) (map_parameter h)); [apply IHp'|]. intros j a.
          apply (bind_under h (map_parameter h)); [apply esc_under, take_while_under|]. intros j' a'.
          apply (bind_under h (map_parameter h)); [apply tag_under|]. intros. same.
        * intros a. cbn [map_parameter par_input]. rewrite (below_len _ _ _ H). now apply fail_take_under.
        * now apply fail_take_under.
      + destruct (c =? c_ "(").
        * eapply if_ok_under.
          -- apply (peek_under (map_optional h)). exact IHo.
          -- intros a. cbn [map_optional opt_input]. rewrite (below_len _ _ _ H). now apply fail_take_under.
          -- now apply fail_take_under.
        * destruct (contains reserved_chars c); [now apply fail_take_under|same].
    - intros i. cbn [optional_d_in]. destruct (tag_under (s_ "(") i) as [-> | ->]; [boom|].
      destruct (tag_in base (s_ "(") i) as [i1 ob|b]; [|same]. cbn [gmap_result].
      destruct (esc_under _ _ (take_while_under is_in_optional) i1) as [-> | ->]; [boom|].
      destruct (escaped_reserved_chars0_in base (take_while_in base is_in_optional) i1) as [i2 nm|b]; [|same]. cbn [gmap_result].
      match goal with |- upto _ (match map_err_in _ ?g' _ with _ => _ end) (match map_err_in _ ?g _ with _ => _ end) =>
        destruct (map_err_under h (tag_in ops (s_ ")")) (tag_in base (s_ ")")) g' g i2 (tag_under _ i2)) as [-> | ->] end; [|boom|].
      2:{ destruct (map_err_in _ _ i2); [|same]. cbn [gmap_result]. rewrite (below_len _ _ _ H). destruct (g_len base nm =? 0); [|same].
        now apply bad_under, fail_take_under. }
      intros _ _. cbv beta. rewrite (below_elements _ _ _ H). destruct (g_elements base i2) as [|c r]; [same|].
      destruct (c =? c_ "(").
      + eapply if_ok_under.
        * apply (bind_under (map_optional h) (map_optional h)); [apply IHo|]. intros j a.
          apply (bind_under h (map_optional h)); [apply esc_under, take_while_under|]. intros j' a'.
          apply (bind_under h (map_optional h)); [apply tag_under|]. intros. same.
        * intros a. cbn [map_optional opt_input]. rewrite (below_len _ _ _ H). now apply fail_take_under.
        * now apply fail_take_under.
      + destruct (c =? c_ "{").
        * eapply if_ok_under.
          -- apply (peek_under (map_parameter h) (fun i => fst (parameter_d_in ops d i 0)) (fun i => fst (parameter_d_in base d i 0))).
             intros j. apply IHp'.
          -- intros a. cbn [map_parameter par_input]. rewrite (below_len _ _ _ H). now apply fail_take_under.
          -- now apply fail_take_under.
        * destruct (c =? c_ "/"); [now apply fail_take_under|].
          destruct (contains reserved_chars c); [now apply fail_take_under|same].
  Qed.

  Lemma parameter_under : under_st (map_parameter h) (parse_parameter_in ops) (parse_parameter_in base).
  Proof. intros i ix. unfold parse_parameter_in. rewrite (below_elements _ _ _ H). apply depth_under. Qed.
  Lemma optional_under : under (map_optional h) (parse_optional_in ops) (parse_optional_in base).
  Proof. intros i. unfold parse_optional_in. rewrite (below_elements _ _ _ H). apply depth_under. Qed.
  Lemma text_under : under h
    (verify_in (escaped_reserved_chars0_in ops (take_while_in ops is_without_whitespace)) (fun p => 0 <? g_len ops p))
    (verify_in (escaped_reserved_chars0_in base (take_while_in base is_without_whitespace)) (fun p => 0 <? g_len base p)).
  Proof. apply verify_under; [apply esc_under, take_while_under|]. intros a. now rewrite (below_len _ _ _ H). Qed.
  Lemma alternative_under : under (map_alternative h) (parse_alternative_in ops) (parse_alternative_in base).
  Proof.
    intros i. unfold parse_alternative_in.
    match goal with |- upto _ (fst (alt_in ?qs _ _)) (fst (alt_in ?ps _ _)) =>
      assert (E : under_st (S := unit) (map_alternative h) (alt_in qs) (alt_in ps)) end.
    { apply alt_under. constructor; [|constructor; [|constructor]]; apply pure_under.
      - apply (map_under (map_optional h) (map_alternative h)); [apply optional_under|reflexivity].
      - apply (map_under h (map_alternative h)); [apply text_under|reflexivity]. }
    destruct (E i tt) as [F | F]; [left; exact F|right; now rewrite F].
  Qed.
  Lemma span_len_under (a : alternation K) : span_len (g_len ops) (map_alternation h a) = span_len (g_len base) a.
  Proof.
    unfold span_len. assert (E : map (alternative_len (g_len ops)) (List.concat (map_alternation h a)) = map (alternative_len (g_len base)) (List.concat a)).
    { induction a as [|b a IH]; [reflexivity|]. cbn [map_alternation map List.concat]. rewrite !map_app. fold (map_alternation h a). rewrite IH. f_equal.
      rewrite map_map. apply map_ext. intros [o|t]; cbn; now rewrite (below_len _ _ _ H). }
    rewrite E. unfold map_alternation. rewrite map_length. reflexivity.
  Qed.
  Lemma alternation_under : under (map_alternation h) (parse_alternation_in ops) (parse_alternation_in base).
  Proof.
    intros i. unfold parse_alternation_in.
    assert (Hk : forall rest (a : alternation K), upto (map_alternation h)
      (if contains_only_optional (map_alternation h a)
          then match span_len (g_len ops) (map_alternation h a) with None => GBad GPanic | Some n => GBad (fail_take_in ops OnlyOptionalInAlternation (h i) n) end
          else GOk (h rest) (map_alternation h a))
        (if contains_only_optional a
         then match span_len (g_len base) a with None => GBad GPanic | Some n => GBad (fail_take_in base OnlyOptionalInAlternation i n) end
         else GOk rest a)).
    { intros rest a. rewrite contains_only_map, span_len_under. destruct (contains_only_optional a); [|same].
      destruct (span_len (g_len base) a); [|same]. now apply bad_under, fail_take_under. }
    destruct (separated_under h (tag_in base (s_ "/")) (tag_in ops (s_ "/")) (map (map_alternative h)) _ _
              (tag_under (s_ "/")) (many1_under (map_alternative h) _ _ alternative_under) i) as [-> | ->]; [boom|].
    destruct (separated_list1_in base (tag_in base (s_ "/")) (many1_in base (parse_alternative_in base)) i) as [rest a|b]; cbn [gmap_result].
    - destruct (peek_under h _ _ (tag_under (s_ "/")) rest) as [-> | ->]; [boom|].
      destruct (peek_in (tag_in base (s_ "/")) rest) as [r sl|[]]; cbn [gmap_result gmap_bad]; try same;
        (rewrite map_length; destruct (Nat.eqb (List.length a) 1); [same|]; exact (Hk rest a)).
    - destruct b as [[]| | | |]; try same. destruct k; try same. cbn [gmap_bad map_error].
      destruct (peek_under h _ _ (tag_under (s_ "/")) i0) as [-> | ->]; [boom|].
      destruct (peek_in (tag_in base (s_ "/")) i0) as [r sl|[]]; cbn [gmap_result gmap_bad]; try same.
      now apply bad_under, fail_take_under.
  Qed.
  Lemma single_expression_under : under_st (map_single h) (parse_single_expression_in ops) (parse_single_expression_in base).
  Proof.
    intros i ix. unfold parse_single_expression_in. apply (alt_under (map_single h)).
    constructor; [|constructor; [|constructor; [|constructor; [|constructor; [|constructor]]]]]; try apply pure_under.
    - apply (map_under (map_alternation h) (map_single h)); [apply alternation_under|reflexivity].
    - apply (map_under (map_optional h) (map_single h)); [apply optional_under|reflexivity].
    - intros j jx. destruct (parameter_under j jx) as [E | E].
      + destruct (parse_parameter_in ops (h j) jx) as [r' jx']. cbn in E. subst. boom.
      + rewrite E. destruct (parse_parameter_in base j jx) as [[r p|b] jx']; same.
    - apply (map_under h (map_single h)); [apply text_under|reflexivity].
    - apply (map_under h (map_single h)); [apply take_while1_under|reflexivity].
  Qed.
  Lemma expression_under : under (map_expression h) (parse_expression_in ops) (parse_expression_in base).
  Proof.
    intros i. unfold parse_expression_in.
    destruct (many0_under (map_single h) _ _ single_expression_under i 0) as [E | E]; [left; exact E|right; now rewrite E].
  Qed.
End Below.
