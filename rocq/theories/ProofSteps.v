(** The counted parser finds what the parser finds. *)
From Verif Require Export Steps.

Lemma fst_tick {A} n (x : counted A) : fst (tick n x) = fst x.
Proof. reflexivity. Qed.
Lemma fst_then {A B} (x : counted A) (k : A -> counted B) : fst (then_ x k) = fst (k (fst x)).
Proof. reflexivity. Qed.
Definition same {A} (p : counted_parser A) (q : parser A) : Prop := forall i, fst (p i) = q i.

Ltac branch := match goal with |- context [match ?x with _ => _ end] => destruct x end.

Lemma tag_same t : same (tag_steps t) (tag t).
Proof. intros i. unfold tag_steps, tag. rewrite fst_tick. now destruct (starts_with t (frag i)). Qed.
Lemma one_of_same l : same (one_of_steps l) (one_of l).
Proof. intros i. unfold one_of_steps, one_of. repeat branch; reflexivity. Qed.
Lemma take_while_same f : same (take_while_steps f) (take_while f).
Proof. intros i. unfold take_while_steps, take_while. rewrite fst_tick. branch; reflexivity. Qed.
Lemma take_while1_same f : same (take_while1_steps f) (take_while1 f).
Proof. intros i. unfold take_while1_steps, take_while1. rewrite fst_tick. repeat branch; reflexivity. Qed.
Lemma map_same {A B} (p : counted_parser A) q (f : A -> B) : same p q ->
  same (map_steps p f) (map_parser q f).
Proof. intros H i. unfold map_steps, map_parser. rewrite fst_tick, fst_then, H. now destruct (q i). Qed.
Lemma verify_same {A} (p : counted_parser A) q ok : same p q -> same (verify_steps p ok) (verify q ok).
Proof. intros H i. unfold verify_steps, verify. rewrite fst_tick, fst_then, H. now destruct (q i). Qed.
Lemma peek_same {A} (p : counted_parser A) q : same p q -> same (peek_steps p) (peek q).
Proof. intros H i. unfold peek_steps, peek. rewrite fst_tick, fst_then, H. now destruct (q i). Qed.
Lemma bind_same {A B} (x : counted (result A)) r (k : span -> A -> counted (result B)) k' :
  fst x = r -> (forall i a, fst (k i a) = k' i a) -> fst (bind_steps x k) = bind r k'.
Proof. intros <- H. unfold bind_steps, bind. rewrite fst_then. destruct (fst x); [apply H|reflexivity]. Qed.

Definition same_st {S A} (p : span -> S -> counted (result A * S)) (q : span -> S -> result A * S) : Prop :=
  forall i st, fst (p i st) = q i st.
Lemma pure_same {S A} (p : counted_parser A) q : same p q -> same_st (S := S) (pure_steps p) (pure q).
Proof. intros H i st. unfold pure_steps, pure. cbn. now rewrite H. Qed.
Lemma alt_from_same {S A} (ps : list (span -> S -> counted (result A * S))) qs : Forall2 same_st ps qs ->
  forall e i st, fst (alt_from_steps ps e i st) = alt_from qs e i st.
Proof.
  induction 1 as [|p q ps qs H _ IH]; intros e i st; cbn [alt_from_steps alt_from]; [reflexivity|].
  rewrite fst_then. specialize (H i st). destruct (fst (p i st)) as [[r a|[]] st']; rewrite <- H; try reflexivity. apply IH.
Qed.
Lemma alt_same {S A} (ps : list (span -> S -> counted (result A * S))) qs : Forall2 same_st ps qs ->
  same_st (alt_steps ps) (alt qs).
Proof.
  intros H i st. unfold alt_steps, alt. rewrite fst_tick. destruct H as [|p q ps qs H Hs]; [reflexivity|].
  rewrite fst_then. specialize (H i st). destruct (fst (p i st)) as [[r a|[]] st']; rewrite <- H; try reflexivity. now apply alt_from_same.
Qed.

Lemma many0_loop_same {S A} (p : span -> S -> counted (result A * S)) q : same_st p q ->
  forall fuel acc i st, fst (many0_loop_steps fuel p acc i st) = many0_loop fuel q acc i st.
Proof.
  intros H. induction fuel as [|fuel IH]; intros acc i st; cbn [many0_loop_steps many0_loop]; [reflexivity|].
  rewrite fst_tick, fst_then, H. destruct (q i st) as [[r a|[]] st']; try reflexivity.
  destruct (input_len r =? input_len i); [reflexivity|apply IH].
Qed.
Lemma many0_same {S A} (p : span -> S -> counted (result A * S)) q : same_st p q ->
  same_st (many0_steps p) (many0 q).
Proof. intros H i st. unfold many0_steps, many0. rewrite fst_tick. now apply many0_loop_same. Qed.
Lemma many1_loop_same {A} (p : counted_parser A) q : same p q ->
  forall fuel acc i, fst (many1_loop_steps fuel p acc i) = many1_loop fuel q acc i.
Proof.
  intros H. induction fuel as [|fuel IH]; intros acc i; cbn [many1_loop_steps many1_loop]; [reflexivity|].
  rewrite fst_tick, fst_then, H. destruct (q i) as [r a|[]]; try reflexivity.
  destruct (input_len r =? input_len i); [reflexivity|apply IH].
Qed.
Lemma many1_same {A} (p : counted_parser A) q : same p q -> same (many1_steps p) (many1 q).
Proof.
  intros H i. unfold many1_steps, many1. rewrite fst_tick, fst_then, H.
  destruct (q i) as [r a|[]]; try reflexivity. now apply many1_loop_same.
Qed.
Lemma separated_list1_loop_same {A B} (s : counted_parser B) t (p : counted_parser A) q : same s t -> same p q ->
  forall fuel acc i, fst (separated_list1_loop_steps fuel s p acc i) = separated_list1_loop fuel t q acc i.
Proof.
  intros Hs H. induction fuel as [|fuel IH]; intros acc i;
    cbn [separated_list1_loop_steps separated_list1_loop]; [reflexivity|].
  rewrite fst_tick, fst_then, Hs. destruct (t i) as [r a|[]]; try reflexivity.
  rewrite fst_then, H. destruct (q r) as [r' a'|[]]; try reflexivity.
  destruct (input_len r' =? input_len i); [reflexivity|apply IH].
Qed.
Lemma separated_list1_same {A B} (s : counted_parser B) t (p : counted_parser A) q : same s t -> same p q ->
  same (separated_list1_steps s p) (separated_list1 t q).
Proof.
  intros Hs H i. unfold separated_list1_steps, separated_list1. rewrite fst_tick, fst_then, H.
  destruct (q i) as [r a|[]]; try reflexivity. now apply separated_list1_loop_same.
Qed.
Lemma map_err_same {A} (p : counted_parser A) q f g : same p q -> (forall b, fst (f b) = g b) ->
  same (map_err_steps p f) (map_err q g).
Proof.
  intros H Hf i. unfold map_err_steps, map_err. rewrite fst_tick, fst_then, H.
  destruct (q i) as [r a|[]]; try reflexivity; rewrite fst_then, Hf; reflexivity.
Qed.
Lemma escaped0_loop_same {A B} (p : counted_parser A) q c (p' : counted_parser B) q' : same p q -> same p' q' ->
  forall fuel input i cn,
  fst (escaped0_loop_steps fuel p c p' input i cn) = escaped0_loop fuel q c q' input i cn.
Proof.
  intros H H'. induction fuel as [|fuel IH]; intros input i cn; cbn [escaped0_loop_steps escaped0_loop];
    rewrite fst_tick; destruct (input_len i =? 0); try reflexivity.
  rewrite fst_then, H.
  match goal with |- fst (match _ with _ => _ end) = match _ with Ok _ _ => if cn then ?e else _ | _ => _ end =>
    set (esc := e) end.
  match goal with |- fst (match q i with Ok _ _ => if cn then ?e else _ | _ => _ end) = _ =>
    assert (He : fst e = esc) end.
  { unfold esc. destruct (iter_elements i) as [|d r]; [reflexivity|]. rewrite fst_tick.
    destruct (d =? c).
    - destruct (input_len i <=? len_utf8 c); [reflexivity|].
      destruct (take_from i (len_utf8 c)) as [i'|]; [|reflexivity].
      rewrite fst_tick, fst_then, H'. destruct (q' i') as [i2 a|[]]; try reflexivity.
      destruct (input_len i2 =? 0); [reflexivity|apply IH].
    - destruct (offset input i); reflexivity. }
  destruct (q i) as [i2 a|[]]; try exact He; try reflexivity. destruct cn; [exact He|].
  destruct (input_len i2 =? 0); [reflexivity|apply IH].
Qed.
Lemma escaped_error_same b : fst (escaped_error_steps b) = escaped_error b.
Proof.
  destruct b as [[]| | | |]; try reflexivity. destruct k; try reflexivity.
  unfold escaped_error_steps, escaped_error. rewrite fst_tick.
  destruct (input_len i =? 1); [reflexivity|]. now destruct (1 <? input_len i).
Qed.
Lemma esc_same p q : same p q -> same (escaped_reserved_chars0_steps p) (escaped_reserved_chars0 q).
Proof.
  intros H. apply map_err_same; [|exact escaped_error_same].
  intros i. unfold escaped0_steps, escaped0. apply escaped0_loop_same; [exact H|apply one_of_same].
Qed.
Lemma if_ok_same {A} (x : counted (result A)) r yes yes' no no' : fst x = r ->
  (forall a, fst (yes a) = yes' a) -> fst no = no' -> fst (if_ok_steps x yes no) = if_ok r yes' no'.
Proof.
  intros <- Hy Hn. unfold if_ok_steps, if_ok. rewrite fst_then.
  destruct (fst x) as [i a|[]]; try reflexivity; [apply Hy|exact Hn..].
Qed.

Lemma depth_same d : (forall i ix, fst (parameter_d_steps d i ix) = parameter_d d i ix) /\
                     (forall i, fst (optional_d_steps d i) = optional_d d i).
Proof.
  induction d as [|d [IHp IHo]]; [split; reflexivity|]. split.
  - intros i ix. cbn [parameter_d_steps parameter_d]. rewrite fst_tick, fst_then, (tag_same (s_ "{") i).
    destruct (tag (s_ "{") i) as [i1 ob|b]; [|reflexivity].
    rewrite fst_then, (esc_same _ _ (take_while_same is_name) i1).
    destruct (escaped_reserved_chars0 (take_while is_name) i1) as [i2 nm|b]; [|reflexivity].
    rewrite fst_then. match goal with |- _ = match map_err _ ?g _ with _ => _ end =>
      rewrite (map_err_same _ _ _ g (tag_same (s_ "}"))) end.
    { match goal with |- fst (match ?x with _ => _ end) = _ => destruct x as [i3 y|b]; [|reflexivity] end.
      now destruct (usize_max <? ix + 1). }
    intros _. rewrite fst_tick. destruct (iter_elements i2) as [|c r]; [reflexivity|].
    destruct (c =? c_ "{").
    + apply if_ok_same; try reflexivity. apply bind_same; [cbn [fst]; now rewrite IHp|].
      intros i' a. apply bind_same; [apply (esc_same _ _ (take_while_same is_name))|].
      intros i3 a3. apply bind_same; [apply tag_same|reflexivity].
    + destruct (c =? c_ "(").
      * apply if_ok_same; try reflexivity. now apply peek_same.
      * now destruct (contains reserved_chars c).
  - intros i. cbn [optional_d_steps optional_d]. rewrite fst_tick, fst_then, (tag_same (s_ "(") i).
    destruct (tag (s_ "(") i) as [i1 ob|b]; [|reflexivity].
    rewrite fst_then, (esc_same _ _ (take_while_same is_in_optional) i1).
    destruct (escaped_reserved_chars0 (take_while is_in_optional) i1) as [i2 nm|b]; [|reflexivity].
    rewrite fst_then. match goal with |- _ = match map_err _ ?g _ with _ => _ end =>
      rewrite (map_err_same _ _ _ g (tag_same (s_ ")"))) end.
    { match goal with |- fst (match ?x with _ => _ end) = _ => destruct x as [i3 y|b]; [|reflexivity] end.
      now destruct (input_len nm =? 0). }
    intros _. rewrite fst_tick. destruct (iter_elements i2) as [|c r]; [reflexivity|].
    destruct (c =? c_ "(").
    + apply if_ok_same; try reflexivity. apply bind_same; [apply IHo|].
      intros i' a. apply bind_same; [apply (esc_same _ _ (take_while_same is_in_optional))|].
      intros i3 a3. apply bind_same; [apply tag_same|reflexivity].
    + destruct (c =? c_ "{").
      * apply if_ok_same; try reflexivity. apply peek_same. intros j. cbn [fst]. now rewrite IHp.
      * destruct (c =? c_ "/"); [reflexivity|]. now destruct (contains reserved_chars c).
Qed.
Lemma parse_parameter_same : same_st parse_parameter_steps parse_parameter.
Proof. intros i ix. apply depth_same. Qed.
Lemma parse_optional_same : same parse_optional_steps parse_optional.
Proof. intros i. apply depth_same. Qed.
Lemma parse_alternative_same : same parse_alternative_steps parse_alternative.
Proof.
  intros i. unfold parse_alternative_steps, parse_alternative. cbv zeta. cbn [fst].
  rewrite (alt_same _ [pure (map_parser parse_optional AltOptional);
            pure (map_parser
                    (verify (escaped_reserved_chars0 (take_while is_without_whitespace))
                       (fun p => 0 <? input_len p))
                    AltText)]); [reflexivity|].
  repeat constructor; apply pure_same, map_same; [apply parse_optional_same|].
  apply verify_same, esc_same, take_while_same.
Qed.
Definition alternation_list : parser (alternation span) := fun input =>
  match separated_list1 (tag (s_ "/")) (many1 parse_alternative) input with
  | Ok rest alt =>
      match peek (tag (s_ "/")) rest with
      | Ok _ slash => Bad (BFailure (EmptyAlternation slash))
      | Bad BPanic => Bad BPanic
      | Bad BFuel => Bad BFuel
      | Bad _ =>
          if Nat.eqb (List.length alt) 1 then Bad (BError (Other rest KTag))
          else Ok rest alt
      end
  | Bad (BError (Other sp KMany1)) =>
      match peek (tag (s_ "/")) sp with
      | Ok _ _ => Bad (fail_take EmptyAlternation sp 1)
      | Bad BPanic => Bad BPanic
      | Bad BFuel => Bad BFuel
      | Bad _ => Bad (BError (Other sp KMany1))
      end
  | Bad e => Bad e
  end.
Lemma parse_alternation_list i : parse_alternation i =
  match alternation_list i with
  | Bad b => Bad b
  | Ok rest alt =>
      if contains_only_optional alt then
        match span_len input_len alt with
        | None => Bad BPanic
        | Some n => Bad (fail_take OnlyOptionalInAlternation i n)
        end
      else Ok rest alt
  end.
Proof. reflexivity. Qed.
Lemma alternation_list_same : same alternation_list_steps alternation_list.
Proof.
  intros i. unfold alternation_list_steps, alternation_list. rewrite fst_then.
  rewrite (separated_list1_same _ _ _ _ (tag_same (s_ "/")) (many1_same _ _ parse_alternative_same) i).
  destruct (separated_list1 _ _ i) as [r a|[e|e| | |]]; try reflexivity.
  - rewrite fst_then, (peek_same _ _ (tag_same (s_ "/")) r).
    destruct (peek (tag (s_ "/")) r) as [r' a'|[]]; try reflexivity; now destruct (Nat.eqb (List.length a) 1).
  - destruct e; try reflexivity. destruct k; try reflexivity.
    rewrite fst_then, (peek_same _ _ (tag_same (s_ "/")) i0).
    destruct (peek (tag (s_ "/")) i0) as [r' a'|[]]; reflexivity.
Qed.
Lemma parse_alternation_same : same parse_alternation_steps parse_alternation.
Proof.
  intros i. rewrite parse_alternation_list. unfold parse_alternation_steps.
  rewrite fst_tick, fst_then, (alternation_list_same i).
  destruct (alternation_list i) as [r a|b]; [|reflexivity].
  rewrite fst_tick. destruct (contains_only_optional a); [|reflexivity]. rewrite fst_tick.
  now destruct (span_len input_len a).
Qed.
Lemma parse_single_expression_same : same_st parse_single_expression_steps parse_single_expression.
Proof.
  intros i ix. unfold parse_single_expression_steps, parse_single_expression.
  apply alt_same. repeat constructor.
  - apply pure_same, map_same, parse_alternation_same.
  - apply pure_same, map_same, parse_optional_same.
  - intros j jx. rewrite fst_then, (parse_parameter_same j jx).
    now destruct (parse_parameter j jx) as [[r p|b] ix'].
  - apply pure_same, map_same, verify_same, esc_same, take_while_same.
  - apply pure_same, map_same, take_while1_same.
Qed.
Lemma parse_expression_same : same parse_expression_steps parse_expression.
Proof.
  intros i. unfold parse_expression_steps, parse_expression. cbv zeta. cbn [fst].
  now rewrite (many0_same _ _ parse_single_expression_same i 0).
Qed.
Lemma expression_parse_same s : fst (expression_parse_steps s) = expression_parse s.
Proof.
  unfold expression_parse_steps, expression_parse. rewrite fst_then, (parse_expression_same (span_new s)).
  reflexivity.
Qed.
