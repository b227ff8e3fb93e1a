(** Proof layer: the parsers of [Parse.v] described on lists of characters, without bytes, spans,
    fuel or panics. Nothing here occurs in the statements of the properties. *)
From Verif Require Export Parse SpecErrors.

Definition at_ (o l : N) (p s : str) : span := span_at o l (p, s).

Inductive cres (A : Type) :=
| COk (p r : str) (a : A)
| CErr (e : error text_at)
| CFail (e : error text_at).
Arguments COk {A}. Arguments CErr {A}. Arguments CFail {A}.

Definition lift {A B} (o l : N) (f : A -> B) (c : cres A) : result B :=
  match c with
  | COk p r a => Ok (at_ o l p r) (f a)
  | CErr e => Bad (BError (map_error (span_at o l) e))
  | CFail e => Bad (BFailure (map_error (span_at o l) e))
  end.

(** ** Bytes *)
Lemma len_utf8_pos c : 1 <= len_utf8 c.
Proof. unfold len_utf8; destruct (c <? 128), (c <? 2048), (c <? 65536); lia. Qed.

Lemma blen_app s t : blen (s ++ t) = blen s + blen t.
Proof. induction s as [|c s IH]; cbn [blen app]; lia. Qed.
Lemma newlines_app s t : newlines (s ++ t) = newlines s + newlines t.
Proof. induction s as [|c s IH]; cbn [newlines app]; lia. Qed.
Lemma blen_nil_iff s : blen s = 0 <-> s = [].
Proof.
  destruct s as [|c s]; cbn [blen]; split; try easy.
  pose proof (len_utf8_pos c). intros; lia.
Qed.
Lemma blen_eqb_nil s : (blen s =? 0) = match s with [] => true | _ => false end.
Proof.
  destruct s as [|c s]; [reflexivity|].
  cbn [blen]. pose proof (len_utf8_pos c). apply N.eqb_neq. lia.
Qed.
Lemma blen_length s : N.of_nat (List.length s) <= blen s.
Proof.
  induction s as [|c s IH]; cbn [blen List.length]; [lia|].
  pose proof (len_utf8_pos c). lia.
Qed.

Lemma take_bytes_app t r : take_bytes (blen t) (t ++ r) = Some t.
Proof.
  induction t as [|c t IH]; cbn [blen app].
  - destruct r; reflexivity.
  - pose proof (len_utf8_pos c). cbn [take_bytes].
    destruct (N.eqb_spec (len_utf8 c + blen t) 0); [lia|].
    destruct (N.ltb_spec (len_utf8 c + blen t) (len_utf8 c)); [lia|].
    replace (len_utf8 c + blen t - len_utf8 c) with (blen t) by lia.
    rewrite IH. reflexivity.
Qed.
Lemma drop_bytes_app t r : drop_bytes (blen t) (t ++ r) = Some r.
Proof.
  induction t as [|c t IH]; cbn [blen app].
  - destruct r; reflexivity.
  - pose proof (len_utf8_pos c). cbn [drop_bytes].
    destruct (N.eqb_spec (len_utf8 c + blen t) 0); [lia|].
    destruct (N.ltb_spec (len_utf8 c + blen t) (len_utf8 c)); [lia|].
    replace (len_utf8 c + blen t - len_utf8 c) with (blen t) by lia.
    exact IH.
Qed.

(** ** Spans *)
Lemma frag_at o l p s : frag (at_ o l p s) = s.
Proof. reflexivity. Qed.
Lemma input_len_at o l p s : input_len (at_ o l p s) = blen s.
Proof. reflexivity. Qed.
Lemma iter_elements_at o l p s : iter_elements (at_ o l p s) = s.
Proof. reflexivity. Qed.

Lemma take_at o l p t r n : n = blen t -> take (at_ o l p (t ++ r)) n = Some (at_ o l p t).
Proof. intros ->. unfold take. rewrite frag_at, take_bytes_app. reflexivity. Qed.
Lemma take_from_at o l p t r n :
  n = blen t -> take_from (at_ o l p (t ++ r)) n = Some (at_ o l (p ++ t) r).
Proof.
  intros ->. unfold take_from. rewrite frag_at, take_bytes_app, drop_bytes_app.
  unfold at_, span_at. cbn. rewrite blen_app, newlines_app. do 2 f_equal; lia.
Qed.
Lemma split_at o l p t r n :
  n = blen t -> split_result (at_ o l p (t ++ r)) n = Ok (at_ o l (p ++ t) r) (at_ o l p t).
Proof.
  intros Hn. unfold split_result, take_split.
  rewrite (take_from_at _ _ _ _ _ _ Hn), (take_at _ _ _ _ _ _ Hn). reflexivity.
Qed.
Lemma offset_at o l p t s r : offset (at_ o l p s) (at_ o l (p ++ t) r) = Some (blen t).
Proof.
  unfold offset, at_, span_at. cbn [off fst]. rewrite blen_app.
  destruct (N.ltb_spec (o + (blen p + blen t)) (o + blen p)); [lia|]. f_equal; lia.
Qed.
Lemma whole_at o l p s : whole (at_ o l p s) = Ok (at_ o l (p ++ s) []) (at_ o l p s).
Proof.
  unfold whole. replace (at_ o l p s) with (at_ o l p (s ++ [])) at 1 by now rewrite app_nil_r.
  rewrite take_from_at; [reflexivity|]. rewrite input_len_at. reflexivity.
Qed.

Lemma tag1_at o l (p : str) (c : char) (s : str) :
  c < 128 ->
  tag [c] (at_ o l p s)
  = match s with
    | d :: r => if c =? d then Ok (at_ o l (p ++ [c]) r) (at_ o l p [c])
                else Bad (BError (Other (at_ o l p s) KTag))
    | [] => Bad (BError (Other (at_ o l p s) KTag))
    end.
Proof.
  intros Hc. unfold tag. rewrite frag_at. destruct s as [|d r]; [reflexivity|].
  cbn [starts_with]. rewrite andb_true_r. destruct (N.eqb_spec c d) as [->|]; [|reflexivity].
  change (d :: r) with ([d] ++ r). now apply split_at.
Qed.

Lemma one_of_at o l (p cs s : str) :
  one_of cs (at_ o l p s)
  = match s with
    | d :: r => if contains cs d then Ok (at_ o l (p ++ [d]) r) d
                else Bad (BError (Other (at_ o l p s) KOneOf))
    | [] => Bad (BError (Other (at_ o l p s) KOneOf))
    end.
Proof.
  unfold one_of. rewrite iter_elements_at. destruct s as [|d r]; [reflexivity|].
  destruct (contains cs d); [|reflexivity].
  change (d :: r) with ([d] ++ r). rewrite take_from_at; [reflexivity|]. cbn. lia.
Qed.

(** ** take_while *)
Fixpoint span_while (f : char -> bool) (s : str) : str * str :=
  match s with
  | c :: s' => if f c then let '(w, r) := span_while f s' in (c :: w, r) else ([], s)
  | [] => ([], [])
  end.
Lemma span_while_app f s : forall w r, span_while f s = (w, r) -> s = w ++ r.
Proof.
  induction s as [|c s IH]; cbn; intros w r H; [now injection H as <- <-|].
  destruct (f c); [|now injection H as <- <-].
  destruct (span_while f s) as [w' r'] eqn:E. injection H as <- <-.
  cbn. f_equal. now apply IH.
Qed.
Lemma span_while_all f s : forall w r, span_while f s = (w, r) -> forallb f w = true.
Proof.
  induction s as [|c s IH]; cbn; intros w r H; [now injection H as <- <-|].
  destruct (f c) eqn:Hc; [|now injection H as <- <-].
  destruct (span_while f s) as [w' r'] eqn:E. injection H as <- <-.
  cbn. rewrite Hc. cbn. now eapply IH.
Qed.
Definition stops (f : char -> bool) (r : str) : Prop :=
  match r with c :: _ => f c = false | [] => True end.
Lemma span_while_stops f s : forall w r, span_while f s = (w, r) -> stops f r.
Proof.
  induction s as [|c s IH]; cbn; intros w r H; [now injection H as <- <-|].
  destruct (f c) eqn:Hc; [|now injection H as <- <-].
  destruct (span_while f s) as [w' r'] eqn:E. injection H as <- <-. now eapply IH.
Qed.
Lemma span_while_intro f w : forall r,
  forallb f w = true -> stops f r -> span_while f (w ++ r) = (w, r).
Proof.
  induction w as [|c w IH]; cbn [app]; intros r Hw Hr.
  - destruct r as [|c r]; [reflexivity|]. cbn in *. now rewrite Hr.
  - cbn in Hw. apply andb_true_iff in Hw as [Hc Hw]. cbn. rewrite Hc, IH; auto.
Qed.

Lemma find_bytes_while f s : forall w r, span_while f s = (w, r) ->
  find_bytes (fun c => negb (f c)) s = match r with [] => None | _ => Some (blen w) end.
Proof.
  induction s as [|c s IH]; cbn; intros w r H; [now injection H as <- <-|].
  destruct (f c) eqn:Hc; cbn; [|now injection H as <- <-].
  destruct (span_while f s) as [w' r'] eqn:E. injection H as <- <-.
  rewrite (IH _ _ eq_refl). destruct r'; reflexivity.
Qed.

Lemma take_while_at f o l p s :
  take_while f (at_ o l p s)
  = let '(w, r) := span_while f s in Ok (at_ o l (p ++ w) r) (at_ o l p w).
Proof.
  unfold take_while. rewrite frag_at.
  destruct (span_while f s) as [w r] eqn:E.
  rewrite (find_bytes_while _ _ _ _ E).
  pose proof (span_while_app _ _ _ _ E) as ->.
  destruct r as [|c r].
  - apply split_at. rewrite input_len_at, app_nil_r. reflexivity.
  - now apply split_at.
Qed.

Lemma take_while1_at f o l p s :
  take_while1 f (at_ o l p s)
  = let '(w, r) := span_while f s in
    match w with
    | [] => Bad (BError (Other (at_ o l p s) KTakeWhile1))
    | _ => Ok (at_ o l (p ++ w) r) (at_ o l p w)
    end.
Proof.
  unfold take_while1. rewrite frag_at, input_len_at.
  destruct (span_while f s) as [w r] eqn:E.
  rewrite (find_bytes_while _ _ _ _ E), !blen_eqb_nil.
  pose proof (span_while_app _ _ _ _ E) as ->.
  destruct r as [|c r].
  - rewrite app_nil_r. destruct w as [|d w]; [reflexivity|].
    replace (d :: w) with ((d :: w) ++ []) at 1 by apply app_nil_r. now apply split_at.
  - rewrite blen_eqb_nil. destruct w as [|d w]; [reflexivity|]. now apply split_at.
Qed.

(** ** Escaped text *)
Definition bs : char := 92.
Lemma bs_eq : c_ "\" = bs. Proof. reflexivity. Qed.

Fixpoint scan (f : char -> bool) (s : str) : str * str :=
  match s with
  | [] => ([], [])
  | c :: s1 =>
      if f c then let '(t, r) := scan f s1 in (c :: t, r)
      else if c =? bs then
        match s1 with
        | d :: s2 =>
            if contains reserved_chars d
            then let '(t, r) := scan f s2 in (c :: d :: t, r)
            else ([], s)
        | [] => ([], s)
        end
      else ([], s)
  end.

(** Where scanning stopped. *)
Inductive stop_kind := StopOk | StopEol | StopBad (d : char).
Definition stop (r : str) : stop_kind :=
  match r with
  | c :: r1 => if c =? bs then match r1 with [] => StopEol | d :: _ => StopBad d end else StopOk
  | [] => StopOk
  end.

(** Induction two characters at a time. *)
Lemma str_ind2 (P : str -> Prop) :
  P [] -> (forall c, P [c]) -> (forall c d s, P s -> P (d :: s) -> P (c :: d :: s)) -> forall s, P s.
Proof.
  intros H0 H1 H2 s. enough (P s /\ forall c, P (c :: s)) by tauto.
  induction s as [|c s [IH1 IH2]]; [split; [assumption|intros; apply H1]|].
  split; [apply IH2|]. intros d. apply H2; auto.
Qed.

Lemma scan_cons f c s :
  scan f (c :: s)
  = if f c then let '(t, r) := scan f s in (c :: t, r)
    else if c =? bs then
      match s with
      | d :: s2 =>
          if contains reserved_chars d
          then let '(t, r) := scan f s2 in (c :: d :: t, r)
          else ([], c :: s)
      | [] => ([], c :: s)
      end
    else ([], c :: s).
Proof. reflexivity. Qed.

Lemma scan_app f s : forall t r, scan f s = (t, r) -> s = t ++ r.
Proof.
  induction s as [|c|c d s IH1 IH2] using str_ind2; intros t r H.
  - injection H as <- <-. reflexivity.
  - cbn in H. destruct (f c); [now injection H as <- <-|].
    destruct (c =? bs); now injection H as <- <-.
  - rewrite scan_cons in H. destruct (f c).
    + destruct (scan f (d :: s)) as [t' r'] eqn:E. injection H as <- <-.
      cbn. f_equal. now apply IH2.
    + destruct (c =? bs); [|now injection H as <- <-].
      destruct (contains reserved_chars d); [|now injection H as <- <-].
      destruct (scan f s) as [t' r'] eqn:E. injection H as <- <-.
      cbn. do 2 f_equal. now apply IH1.
Qed.

Lemma scan_cons_plain f c s :
  f c = true -> scan f (c :: s) = let '(t, r) := scan f s in (c :: t, r).
Proof. intros H. rewrite scan_cons, H. reflexivity. Qed.
Lemma scan_cons_escape f d s :
  f bs = false -> contains reserved_chars d = true ->
  scan f (bs :: d :: s) = let '(t, r) := scan f s in (bs :: d :: t, r).
Proof. intros H Hd. rewrite scan_cons, H, Hd. reflexivity. Qed.
Lemma scan_stop f s :
  match s with
  | [] => True
  | c :: s1 => f c = false /\ (c = bs -> match s1 with d :: _ => contains reserved_chars d = false
                                               | [] => True end)
  end -> scan f s = ([], s).
Proof.
  destruct s as [|c s]; [reflexivity|]. intros [Hc Hs]. rewrite scan_cons, Hc.
  destruct (N.eqb_spec c bs) as [->|]; [|reflexivity].
  destruct s as [|d s]; [reflexivity|]. now rewrite (Hs eq_refl).
Qed.
Lemma scan_while_app f w r :
  forallb f w = true -> scan f (w ++ r) = let '(t, r') := scan f r in (w ++ t, r').
Proof.
  induction w as [|c w IH]; cbn [app]; intros Hw; [now destruct (scan f r)|].
  cbn in Hw. apply andb_true_iff in Hw as [Hc Hw].
  rewrite scan_cons_plain by assumption. rewrite IH by assumption.
  now destruct (scan f r).
Qed.

(** Result of [escaped0 (take_while f)] started at [p], with [s] = unread part. *)
Definition c_escaped0 (o l : N) (f : char -> bool) (p t0 s : str) : result span :=
  let '(t, r) := scan f s in
  match stop r with
  | StopOk => Ok (at_ o l (p ++ t0 ++ t) r) (at_ o l p (t0 ++ t))
  | StopEol => Bad (BError (Other (at_ o l p (t0 ++ s)) KEscaped))
  | StopBad _ => Bad (BError (Other (at_ o l (p ++ t0 ++ t) r) KEscaped))
  end.

Lemma escaped0_loop_at (f : char -> bool) o l p :
  f bs = false ->
  forall fuel (t0 s : str) (cn : bool),
    (2 * List.length s <= fuel + (if cn then 1 else 0))%nat ->
    (cn = true -> stops f s) ->
    escaped0_loop fuel (take_while f) (c_ "\") (one_of reserved_chars)
      (at_ o l p (t0 ++ s)) (at_ o l (p ++ t0) s) cn
    = c_escaped0 o l f p t0 s.
Proof.
  intros Hbs. induction fuel as [|fuel IH]; intros t0 s cn Hfuel Hcn.
  - destruct s as [|c s]; [|cbn [List.length] in Hfuel; destruct cn; lia].
    cbn [escaped0_loop]. rewrite input_len_at. cbn [blen]. rewrite N.eqb_refl.
    rewrite whole_at. unfold c_escaped0; cbn. rewrite !app_nil_r. reflexivity.
  - cbn [escaped0_loop]. rewrite !input_len_at, blen_eqb_nil.
    destruct s as [|c s].
    { rewrite whole_at. unfold c_escaped0; cbn. rewrite !app_nil_r. reflexivity. }
    rewrite take_while_at, iter_elements_at, bs_eq.
    destruct (span_while f (c :: s)) as [w r] eqn:E.
    destruct cn.
    + specialize (Hcn eq_refl). cbn in Hcn. clear E w r. unfold c_escaped0.
      destruct (N.eqb_spec c bs) as [->|Hne].
      * change (len_utf8 bs) with 1. cbn [blen]. change (len_utf8 bs) with 1.
        destruct s as [|d s].
        -- cbn [blen]. destruct (N.leb_spec (1 + 0) 1); [|lia].
           rewrite scan_stop; [reflexivity|now split].
        -- destruct (N.leb_spec (1 + blen (d :: s)) 1) as [Hle|_].
           { pose proof (len_utf8_pos d). cbn [blen] in Hle. lia. }
           change (at_ o l (p ++ t0) (bs :: d :: s)) with (at_ o l (p ++ t0) ([bs] ++ d :: s)).
           rewrite take_from_at by reflexivity. rewrite one_of_at.
           destruct (contains reserved_chars d) eqn:Hd.
           ++ rewrite scan_cons_escape by assumption.
              rewrite input_len_at, blen_eqb_nil.
              destruct s as [|e s].
              { rewrite whole_at. cbn. reflexivity. }
              replace (t0 ++ bs :: d :: e :: s) with ((t0 ++ [bs; d]) ++ e :: s)
                by (rewrite <- app_assoc; reflexivity).
              replace (((p ++ t0) ++ [bs]) ++ [d]) with (p ++ (t0 ++ [bs; d]))
                by (rewrite <- !app_assoc; reflexivity).
              rewrite <- bs_eq.
              rewrite IH; [|cbn [List.length] in *; lia|easy].
              unfold c_escaped0. destruct (scan f (e :: s)) as [t r'].
              rewrite <- !app_assoc. reflexivity.
           ++ rewrite scan_stop; [|split; [assumption|intros _; assumption]].
              cbn [stop]. rewrite N.eqb_refl. rewrite app_nil_r. reflexivity.
      * rewrite offset_at. rewrite split_at by reflexivity.
        rewrite scan_stop; [|split; [assumption|congruence]].
        cbn [stop]. destruct (N.eqb_spec c bs); [easy|]. rewrite app_nil_r. reflexivity.
    + rewrite !input_len_at. rewrite blen_eqb_nil.
      pose proof (span_while_app _ _ _ _ E) as Eapp.
      pose proof (span_while_all _ _ _ _ E) as Ew.
      pose proof (span_while_stops _ _ _ _ E) as Est.
      clear E. rewrite Eapp in *. clear Eapp.
      destruct r as [|d r].
      * rewrite whole_at. unfold c_escaped0.
        rewrite scan_while_app by assumption. cbn [scan stop]. rewrite !app_nil_r. reflexivity.
      * rewrite app_assoc. rewrite <- app_assoc. rewrite <- (app_assoc p).
        rewrite (app_assoc t0 w).
        rewrite <- bs_eq. rewrite IH.
        -- unfold c_escaped0. rewrite scan_while_app by assumption.
           destruct (scan f (d :: r)) as [t r'].
           rewrite <- !app_assoc. reflexivity.
        -- destruct w as [|e w].
           ++ cbn [app] in *. rewrite N.eqb_refl. lia.
           ++ rewrite app_length in Hfuel. cbn [List.length] in *.
              destruct (blen (d :: r) =? blen ((e :: w) ++ d :: r)); lia.
        -- intros _. exact Est.
Qed.

Definition c_esc (f : char -> bool) (p s : str) : cres text_at :=
  let '(t, r) := scan f s in
  match stop r with
  | StopOk => COk (p ++ t) r (p, t)
  | StopEol =>
      match t with
      | [] => CFail (EscapedEndOfLine (p, s))
      | _ => CFail (EscapedNonReservedCharacter (p, firstn 2 s))
      end
  | StopBad d => CFail (EscapedNonReservedCharacter (p ++ t, [bs; d]))
  end.

Lemma stop_eol_inv r : stop r = StopEol -> r = [bs].
Proof.
  destruct r as [|c [|d r]]; cbn; try easy; destruct (N.eqb_spec c bs); easy || congruence.
Qed.
Lemma stop_bad_inv r d : stop r = StopBad d -> exists r', r = bs :: d :: r'.
Proof.
  destruct r as [|c [|e r]]; cbn; try easy; destruct (N.eqb_spec c bs) as [->|]; try easy.
  injection 1 as ->. eauto.
Qed.

Lemma escaped_error_two o l p c d r :
  escaped_error (BError (Other (at_ o l p (c :: d :: r)) KEscaped))
  = BFailure (EscapedNonReservedCharacter (at_ o l p [c; d])).
Proof.
  unfold escaped_error. rewrite input_len_at. cbn [blen].
  pose proof (len_utf8_pos c). pose proof (len_utf8_pos d).
  destruct (N.eqb_spec (len_utf8 c + (len_utf8 d + blen r)) 1); [lia|].
  destruct (N.ltb_spec 1 (len_utf8 c + (len_utf8 d + blen r))); [|lia].
  assert (Hs : slice_index (at_ o l p (c :: d :: r)) 2 = Some (blen [c; d])).
  { unfold slice_index. rewrite frag_at. cbn [slice_index_str]. now destruct r. }
  rewrite Hs. unfold fail_take.
  change (c :: d :: r) with ([c; d] ++ r). now rewrite take_at.
Qed.

Lemma esc_at f o l p s :
  f bs = false ->
  escaped_reserved_chars0 (take_while f) (at_ o l p s) = lift o l (span_at o l) (c_esc f p s).
Proof.
  intros Hf. unfold escaped_reserved_chars0, map_err, escaped0. rewrite frag_at.
  pose proof (escaped0_loop_at f o l p Hf (2 * List.length s)%nat [] s false) as H.
  cbn [app] in H. rewrite app_nil_r in H. rewrite H; [clear H|lia|easy].
  unfold c_escaped0, c_esc. cbn [app].
  destruct (scan f s) as [t r] eqn:E. pose proof (scan_app _ _ _ _ E) as ->.
  destruct (stop r) as [| |d] eqn:Hr.
  - reflexivity.
  - apply stop_eol_inv in Hr as ->. destruct t as [|c t].
    + reflexivity.
    + cbn [app]. destruct (t ++ [bs]) as [|d t'] eqn:Et; [now destruct t|].
      rewrite escaped_error_two. reflexivity.
  - apply stop_bad_inv in Hr as [r' ->]. rewrite escaped_error_two. reflexivity.
Qed.

(** ** Parameter and optional *)
Definition par_ok (s : str) : option (str * str) :=
  match s with
  | c :: s1 =>
      if c =? c_ "{" then
        let '(t, r) := scan is_name s1 in
        match r with
        | d :: r1 => if d =? c_ "}" then Some (t, r1) else None
        | [] => None
        end
      else None
  | [] => None
  end.
Definition opt_ok (s : str) : option (str * str) :=
  match s with
  | c :: s1 =>
      if c =? c_ "(" then
        let '(t, r) := scan is_in_optional s1 in
        match r with
        | d :: r1 => if d =? c_ ")" then match t with [] => None | _ => Some (t, r1) end else None
        | [] => None
        end
      else None
  | [] => None
  end.

Definition ends_with_closing (f : char -> bool) (closing : char) (s : str) : bool :=
  match snd (scan f s) with d :: _ => d =? closing | [] => false end.

(** The error when the closing brace is missing: name ended at [q], [r] follows. *)
Definition c_par_fail (p q r : str) : error text_at :=
  match r with
  | c :: _ =>
      if c =? c_ "{" then
        match par_ok r with
        | Some (t, r1) =>
            if ends_with_closing is_name (c_ "}") r1
            then NestedParameter (q, c_ "{" :: t ++ [c_ "}"])
            else UnescapedReservedCharacter (q, [c])
        | None => UnescapedReservedCharacter (q, [c])
        end
      else if c =? c_ "(" then
        match opt_ok r with
        | Some (t, _) => OptionalInParameter (q, c_ "(" :: t ++ [c_ ")"])
        | None => UnescapedReservedCharacter (q, [c])
        end
      else if contains reserved_chars c then UnescapedReservedCharacter (q, [c])
      else UnfinishedParameter (p, [c_ "{"])
  | [] => UnfinishedParameter (p, [c_ "{"])
  end.
Definition c_opt_fail (p q r : str) : error text_at :=
  match r with
  | c :: _ =>
      if c =? c_ "(" then
        match opt_ok r with
        | Some (t, r1) =>
            if ends_with_closing is_in_optional (c_ ")") r1
            then NestedOptional (q, c_ "(" :: t ++ [c_ ")"])
            else UnescapedReservedCharacter (q, [c])
        | None => UnescapedReservedCharacter (q, [c])
        end
      else if c =? c_ "{" then
        match par_ok r with
        | Some (t, _) => ParameterInOptional (q, c_ "{" :: t ++ [c_ "}"])
        | None => UnescapedReservedCharacter (q, [c])
        end
      else if c =? c_ "/" then AlternationInOptional (q, [c])
      else if contains reserved_chars c then UnescapedReservedCharacter (q, [c])
      else UnfinishedOptional (p, [c_ "("])
  | [] => UnfinishedOptional (p, [c_ "("])
  end.

Definition c_parameter (p s : str) (ix : N) : cres (parameter text_at) :=
  match s with
  | c :: s1 =>
      if c =? c_ "{" then
        match c_esc is_name (p ++ [c]) s1 with
        | COk q r t =>
            match r with
            | d :: r1 =>
                if d =? c_ "}" then COk (q ++ [d]) r1 (mkParameter t ix)
                else CFail (c_par_fail p q r)
            | [] => CFail (c_par_fail p q r)
            end
        | CErr e => CErr e
        | CFail e => CFail e
        end
      else CErr (Other (p, s) KTag)
  | [] => CErr (Other (p, s) KTag)
  end.
Definition c_optional (p s : str) : cres (optional text_at) :=
  match s with
  | c :: s1 =>
      if c =? c_ "(" then
        match c_esc is_in_optional (p ++ [c]) s1 with
        | COk q r t =>
            match r with
            | d :: r1 =>
                if d =? c_ ")" then
                  match snd t with
                  | [] => CFail (EmptyOptional (p, [c; d]))
                  | _ => COk (q ++ [d]) r1 (mkOptional t)
                  end
                else CFail (c_opt_fail p q r)
            | [] => CFail (c_opt_fail p q r)
            end
        | CErr e => CErr e
        | CFail e => CFail e
        end
      else CErr (Other (p, s) KTag)
  | [] => CErr (Other (p, s) KTag)
  end.

Definition is_cok {A} (c : cres A) : bool := match c with COk _ _ _ => true | _ => false end.

Lemma par_ok_spec p s ix :
  match par_ok s with
  | Some (t, r) =>
      s = c_ "{" :: t ++ c_ "}" :: r /\
      c_parameter p s ix = COk (p ++ c_ "{" :: t ++ [c_ "}"]) r (mkParameter (p ++ [c_ "{"], t) ix)
  | None => is_cok (c_parameter p s ix) = false
  end.
Proof.
  unfold par_ok, c_parameter. destruct s as [|c s1]; [reflexivity|].
  destruct (N.eqb_spec c (c_ "{")) as [->|]; [|reflexivity].
  unfold c_esc. destruct (scan is_name s1) as [t r] eqn:E. apply scan_app in E as ->.
  destruct r as [|d r1]; [reflexivity|].
  destruct (N.eqb_spec d (c_ "}")) as [->|].
  - split; [reflexivity|]. cbn. rewrite <- !app_assoc. reflexivity.
  - destruct (stop (d :: r1)); [|destruct t; reflexivity|reflexivity].
    destruct (N.eqb_spec d (c_ "}")) as [->|]; [easy|reflexivity].
Qed.
Lemma opt_ok_spec p s :
  match opt_ok s with
  | Some (t, r) =>
      s = c_ "(" :: t ++ c_ ")" :: r /\
      c_optional p s = COk (p ++ c_ "(" :: t ++ [c_ ")"]) r (mkOptional (p ++ [c_ "("], t))
  | None => is_cok (c_optional p s) = false
  end.
Proof.
  unfold opt_ok, c_optional. destruct s as [|c s1]; [reflexivity|].
  destruct (N.eqb_spec c (c_ "(")) as [->|]; [|reflexivity].
  unfold c_esc. destruct (scan is_in_optional s1) as [t r] eqn:E. apply scan_app in E as ->.
  destruct r as [|d r1]; [reflexivity|].
  destruct (N.eqb_spec d (c_ ")")) as [->|].
  - destruct t as [|e t]; [reflexivity|].
    split; [reflexivity|]. cbn. rewrite <- !app_assoc. reflexivity.
  - destruct (stop (d :: r1)); [|destruct t; reflexivity|reflexivity].
    destruct (N.eqb_spec d (c_ ")")) as [->|]; [easy|reflexivity].
Qed.

Lemma contains_In s c : contains s c = true <-> In c s.
Proof.
  induction s as [|d s IH]; cbn; [easy|].
  rewrite orb_true_iff, N.eqb_eq, IH. reflexivity.
Qed.
Lemma contains_false s c : contains s c = false <-> ~ In c s.
Proof. rewrite <- contains_In. destruct (contains s c); easy. Qed.

Lemma reserved_ascii c : contains reserved_chars c = true -> len_utf8 c = 1.
Proof.
  rewrite contains_In. cbn. intros H.
  repeat (destruct H as [<-|H]; [reflexivity|]). easy.
Qed.

Lemma fail_take_at o l (E : span -> error span) (E' : text_at -> error text_at) q t r n :
  n = blen t -> (forall x, E (span_at o l x) = map_error (span_at o l) (E' x)) ->
  fail_take E (at_ o l q (t ++ r)) n = BFailure (map_error (span_at o l) (E' (q, t))).
Proof.
  intros -> HE. unfold fail_take. rewrite take_at by reflexivity. unfold at_. now rewrite HE.
Qed.
Lemma fail_take_one o l (E : span -> error span) (E' : text_at -> error text_at) q c r :
  len_utf8 c = 1 -> (forall x, E (span_at o l x) = map_error (span_at o l) (E' x)) ->
  fail_take E (at_ o l q (c :: r)) 1 = BFailure (map_error (span_at o l) (E' (q, [c]))).
Proof.
  intros Hc HE. change (c :: r) with ([c] ++ r). apply fail_take_at; [cbn; lia|assumption].
Qed.

Definition next_ix {A} (c : cres A) (ix : N) : N := if is_cok c then ix + 1 else ix.

(** What follows a speculatively parsed nested item. *)
Lemma if_ok_closing {A} (f : char -> bool) o l q r d (a : A) yes no :
  f bs = false -> d < 128 -> d <> bs ->
  if_ok (bind (escaped_reserved_chars0 (take_while f) (at_ o l q r)) (fun i2 _ =>
           bind (tag [d] i2) (fun i3 _ => Ok i3 a))) yes no
  = if ends_with_closing f d r then yes a else no.
Proof.
  intros Hf Hd Hne. unfold ends_with_closing.
  rewrite esc_at by assumption. unfold c_esc.
  destruct (scan f r) as [t r'] eqn:E. apply scan_app in E as ->. cbn [snd].
  destruct (stop r') as [| |x] eqn:Hs.
  - cbn [lift bind]. rewrite tag1_at by assumption. destruct r' as [|e r']; [reflexivity|].
    rewrite (N.eqb_sym d e). destruct (N.eqb_spec e d) as [->|]; reflexivity.
  - apply stop_eol_inv in Hs as ->.
    destruct (N.eqb_spec bs d); [congruence|]. destruct t; reflexivity.
  - apply stop_bad_inv in Hs as [r'' ->].
    destruct (N.eqb_spec bs d); [congruence|]. reflexivity.
Qed.

Lemma c_esc_ok f p s q r t :
  c_esc f p s = COk q r t -> exists t', t = (p, t') /\ q = p ++ t' /\ s = t' ++ r /\ scan f s = (t', r) /\ stop r = StopOk.
Proof.
  unfold c_esc. destruct (scan f s) as [t' r'] eqn:E. pose proof (scan_app _ _ _ _ E).
  destruct (stop r') eqn:Hr; [|now destruct t'|easy].
  injection 1 as <- <- <-. eauto 10.
Qed.
Lemma c_esc_not_err f p s e : c_esc f p s <> CErr e.
Proof.
  unfold c_esc. destruct (scan f s) as [[|] r]; destruct (stop r); easy.
Qed.

Lemma lift_not_ok {A B} o l (g : A -> B) c :
  is_cok c = false ->
  (exists e, lift o l g c = Bad (BError e)) \/ (exists e, lift o l g c = Bad (BFailure e)).
Proof. destruct c; cbn; [easy|eauto..]. Qed.

Lemma par_opt_at : forall depth,
  (forall o l p s ix, (List.length s < depth)%nat -> ix < usize_max ->
     parameter_d depth (at_ o l p s) ix
     = (lift o l (map_parameter (span_at o l)) (c_parameter p s ix),
        next_ix (c_parameter p s ix) ix)) /\
  (forall o l p s, (List.length s < depth)%nat ->
     optional_d depth (at_ o l p s)
     = lift o l (map_optional (span_at o l)) (c_optional p s)).
Proof.
  induction depth as [|depth [IHp IHo]]; [split; intros; lia|].
  split.
  - intros o l p s ix Hlen Hix. cbn [parameter_d].
    change (s_ "{") with [c_ "{"]. change (s_ "}") with [c_ "}"].
    rewrite tag1_at by reflexivity. unfold c_parameter.
    destruct s as [|c s1]; [reflexivity|]. cbn [List.length] in Hlen.
    rewrite (N.eqb_sym c). destruct (N.eqb_spec (c_ "{") c) as [<-|]; [|reflexivity].
    rewrite esc_at by reflexivity.
    destruct (c_esc is_name (p ++ [c_ "{"]) s1) as [q r t|e|e] eqn:Ee; [|reflexivity..].
    cbn [lift]. apply c_esc_ok in Ee as (t' & -> & Hq & Hs & Hscan & Hstop).
    match goal with |- context [map_err _ ?G] => set (F := G) end.
    unfold map_err. rewrite tag1_at by reflexivity.
    assert (Hr : (List.length r < depth)%nat)
      by (rewrite Hs, app_length in Hlen; lia).
    clear Hq Hs Hlen Hscan.
    assert (HF : forall b, match r with d :: _ => d <> c_ "}" | [] => True end ->
                   F b = BFailure (map_error (span_at o l) (c_par_fail p q r))).
    { intros b Hd. unfold F. rewrite iter_elements_at. unfold c_par_fail.
      destruct r as [|d r1]; [reflexivity|].
      destruct (N.eqb_spec d (c_ "{")) as [->|Hd1].
      - rewrite IHp by (assumption || reflexivity). cbn [fst].
        pose proof (par_ok_spec q (c_ "{" :: r1) 0) as Hp.
        destruct (par_ok (c_ "{" :: r1)) as [[t1 r2]|].
        + destruct Hp as [Hr1 ->]. cbn [lift bind].
          rewrite if_ok_closing by easy.
          destruct (ends_with_closing is_name (c_ "}") r2).
          * rewrite Hr1. replace (c_ "{" :: t1 ++ c_ "}" :: r2) with
              ((c_ "{" :: t1 ++ [c_ "}"]) ++ r2)
              by (cbn; rewrite <- app_assoc; reflexivity).
            apply fail_take_at; [|reflexivity].
            cbn [map_parameter par_input span_at]. unfold input_len. cbn [span_at frag snd].
            cbn [blen]. rewrite blen_app. change (len_utf8 (c_ "{")) with 1.
            change (blen [c_ "}"]) with 1. lia.
          * now apply fail_take_one.
        + apply (lift_not_ok o l (map_parameter (span_at o l))) in Hp as [[e ->]|[e ->]];
            cbn [bind if_ok]; now apply fail_take_one.
      - destruct (N.eqb_spec d (c_ "(")) as [->|Hd2].
        + unfold peek. rewrite IHo by assumption.
          pose proof (opt_ok_spec q (c_ "(" :: r1)) as Hp.
          destruct (opt_ok (c_ "(" :: r1)) as [[t1 r2]|].
          * destruct Hp as [Hr1 ->]. cbn [lift if_ok].
            rewrite Hr1. replace (c_ "(" :: t1 ++ c_ ")" :: r2) with
              ((c_ "(" :: t1 ++ [c_ ")"]) ++ r2)
              by (cbn; rewrite <- app_assoc; reflexivity).
            apply fail_take_at; [|reflexivity].
            unfold input_len. cbn [map_optional opt_input span_at frag snd].
            cbn [blen]. rewrite blen_app. change (len_utf8 (c_ "(")) with 1.
            change (blen [c_ ")"]) with 1. lia.
          * apply (lift_not_ok o l (map_optional (span_at o l))) in Hp as [[e ->]|[e ->]];
              cbn [if_ok]; now apply fail_take_one.
        + destruct (contains reserved_chars d) eqn:Hc; [|reflexivity].
          apply fail_take_one; [now apply reserved_ascii|reflexivity]. }
    destruct r as [|d r1].
    + rewrite HF by easy. reflexivity.
    + rewrite (N.eqb_sym d). destruct (N.eqb_spec (c_ "}") d) as [<-|Hne].
      * destruct (N.ltb_spec usize_max (ix + 1)); [lia|].
        replace (ix + 1 - 1) with ix by lia. reflexivity.
      * rewrite HF by congruence. reflexivity.
  - intros o l p s Hlen. cbn [optional_d].
    change (s_ "(") with [c_ "("]. change (s_ ")") with [c_ ")"].
    rewrite tag1_at by reflexivity. unfold c_optional.
    destruct s as [|c s1]; [reflexivity|]. cbn [List.length] in Hlen.
    rewrite (N.eqb_sym c). destruct (N.eqb_spec (c_ "(") c) as [<-|]; [|reflexivity].
    rewrite esc_at by reflexivity.
    destruct (c_esc is_in_optional (p ++ [c_ "("]) s1) as [q r t|e|e] eqn:Ee; [|reflexivity..].
    cbn [lift]. apply c_esc_ok in Ee as (t' & -> & Hq & Hs & Hscan & Hstop).
    match goal with |- context [map_err _ ?G] => set (F := G) end.
    unfold map_err. rewrite tag1_at by reflexivity.
    assert (Hr : (List.length r < depth)%nat)
      by (rewrite Hs, app_length in Hlen; lia).
    clear Hlen Hscan.
    assert (HF : forall b, match r with d :: _ => d <> c_ ")" | [] => True end ->
                   F b = BFailure (map_error (span_at o l) (c_opt_fail p q r))).
    { intros b Hd. unfold F. rewrite iter_elements_at. unfold c_opt_fail.
      destruct r as [|d r1]; [reflexivity|].
      destruct (N.eqb_spec d (c_ "(")) as [->|Hd1].
      - rewrite IHo by assumption.
        pose proof (opt_ok_spec q (c_ "(" :: r1)) as Hp.
        destruct (opt_ok (c_ "(" :: r1)) as [[t1 r2]|].
        + destruct Hp as [Hr1 ->]. cbn [lift bind].
          rewrite if_ok_closing by easy.
          destruct (ends_with_closing is_in_optional (c_ ")") r2).
          * rewrite Hr1. replace (c_ "(" :: t1 ++ c_ ")" :: r2) with
              ((c_ "(" :: t1 ++ [c_ ")"]) ++ r2)
              by (cbn; rewrite <- app_assoc; reflexivity).
            apply fail_take_at; [|reflexivity].
            unfold input_len. cbn [map_optional opt_input span_at frag snd].
            cbn [blen]. rewrite blen_app. change (len_utf8 (c_ "(")) with 1.
            change (blen [c_ ")"]) with 1. lia.
          * now apply fail_take_one.
        + apply (lift_not_ok o l (map_optional (span_at o l))) in Hp as [[e ->]|[e ->]];
            cbn [bind if_ok]; now apply fail_take_one.
      - destruct (N.eqb_spec d (c_ "{")) as [->|Hd2].
        + unfold peek. rewrite IHp by (assumption || reflexivity). cbn [fst].
          pose proof (par_ok_spec q (c_ "{" :: r1) 0) as Hp.
          destruct (par_ok (c_ "{" :: r1)) as [[t1 r2]|].
          * destruct Hp as [Hr1 ->]. cbn [lift if_ok].
            rewrite Hr1. replace (c_ "{" :: t1 ++ c_ "}" :: r2) with
              ((c_ "{" :: t1 ++ [c_ "}"]) ++ r2)
              by (cbn; rewrite <- app_assoc; reflexivity).
            apply fail_take_at; [|reflexivity].
            unfold input_len. cbn [map_parameter par_input span_at frag snd].
            cbn [blen]. rewrite blen_app. change (len_utf8 (c_ "{")) with 1.
            change (blen [c_ "}"]) with 1. lia.
          * apply (lift_not_ok o l (map_parameter (span_at o l))) in Hp as [[e ->]|[e ->]];
              cbn [if_ok]; now apply fail_take_one.
        + destruct (N.eqb_spec d (c_ "/")) as [->|Hd3]; [now apply fail_take_one|].
          destruct (contains reserved_chars d) eqn:Hc; [|reflexivity].
          apply fail_take_one; [now apply reserved_ascii|reflexivity]. }
    destruct r as [|d r1].
    + rewrite HF by easy. reflexivity.
    + rewrite (N.eqb_sym d). destruct (N.eqb_spec (c_ ")") d) as [<-|Hne].
      * change (input_len (span_at o l (p ++ [c_ "("], t'))) with (blen t').
        rewrite blen_eqb_nil. cbn [snd]. rewrite Hs. destruct t' as [|e t']; [|reflexivity].
        change (c_ "(" :: [] ++ c_ ")" :: r1) with ([c_ "("; c_ ")"] ++ r1).
        unfold lift. f_equal. now apply fail_take_at.
      * rewrite HF by congruence. reflexivity.
Qed.

Lemma parse_parameter_at o l p s ix :
  ix < usize_max ->
  parse_parameter (at_ o l p s) ix
  = (lift o l (map_parameter (span_at o l)) (c_parameter p s ix),
     next_ix (c_parameter p s ix) ix).
Proof. intros. unfold parse_parameter. apply par_opt_at; [rewrite frag_at; lia|assumption]. Qed.
Lemma parse_optional_at o l p s :
  parse_optional (at_ o l p s) = lift o l (map_optional (span_at o l)) (c_optional p s).
Proof. intros. unfold parse_optional. apply par_opt_at. rewrite frag_at; lia. Qed.

(** ** Text and alternatives *)
Definition c_text (p s : str) : cres text_at :=
  match c_esc is_without_whitespace p s with
  | COk q r (_, t) => match t with [] => CErr (Other (p, s) KVerify) | _ => COk q r (p, t) end
  | c => c
  end.
Lemma text_at_ok o l p s :
  verify (escaped_reserved_chars0 (take_while is_without_whitespace))
    (fun x => 0 <? input_len x) (at_ o l p s)
  = lift o l (span_at o l) (c_text p s).
Proof.
  unfold verify, c_text. rewrite esc_at by reflexivity.
  destruct (c_esc is_without_whitespace p s) as [q r [p' t]|e|e] eqn:E; [|reflexivity..].
  apply c_esc_ok in E as (t' & Et & _). injection Et as -> <-.
  cbn [lift]. change (input_len (span_at o l (p, t))) with (blen t).
  destruct t as [|c t]; [reflexivity|].
  destruct (N.ltb_spec 0 (blen (c :: t))) as [|Hz]; [reflexivity|].
  apply N.le_0_r, blen_nil_iff in Hz. easy.
Qed.

Definition c_map {A B} (g : A -> B) (c : cres A) : cres B :=
  match c with COk p r a => COk p r (g a) | CErr e => CErr e | CFail e => CFail e end.
Lemma map_lift {A B C} o l (g : A -> B) (h : B -> C) (g' : A -> C) (P : parser B) i c :
  P i = lift o l g c -> (forall a, h (g a) = g' a) ->
  map_parser P h i = lift o l g' c.
Proof. intros H Hg. unfold map_parser. rewrite H. destruct c; cbn; [now rewrite Hg|easy..]. Qed.

Definition c_alternative (p s : str) : cres (alternative text_at) :=
  match c_optional p s with
  | COk q r a => COk q r (AltOptional a)
  | CFail e => CFail e
  | CErr _ =>
      match c_text p s with
      | COk q r a => COk q r (AltText a)
      | CFail e => CFail e
      | CErr _ => CErr (Other (p, s) KAlt)
      end
  end.
Lemma c_text_err p s e : c_text p s = CErr e -> e = Other (p, s) KVerify.
Proof.
  unfold c_text. destruct (c_esc is_without_whitespace p s) as [q r [p' t]|e'|e'] eqn:E.
  - destruct t; [now injection 1 as <-|easy].
  - now apply c_esc_not_err in E.
  - easy.
Qed.
Lemma parse_alternative_at o l p s :
  parse_alternative (at_ o l p s)
  = lift o l (map_alternative (span_at o l)) (c_alternative p s).
Proof.
  unfold parse_alternative, alt, pure, c_alternative.
  unfold map_parser at 1. rewrite parse_optional_at.
  destruct (c_optional p s) as [q r a|e|e]; cbn [lift]; [reflexivity| |reflexivity].
  cbn [alt_from]. unfold map_parser. rewrite text_at_ok.
  destruct (c_text p s) as [q r a|e'|e'] eqn:E; cbn [lift]; [reflexivity| |reflexivity].
  apply c_text_err in E as ->. reflexivity.
Qed.

(** ** Repetition *)
Definition advances {A} (P : str -> str -> cres A) : Prop :=
  forall p s q r a, P p s = COk q r a -> exists t, t <> [] /\ s = t ++ r /\ q = p ++ t.

Lemma advances_shorter {A} (P : str -> str -> cres A) p s q r a :
  advances P -> P p s = COk q r a ->
  (List.length r < List.length s)%nat /\ (blen r =? blen s) = false.
Proof.
  intros HP H. destruct (HP _ _ _ _ _ H) as (t & Ht & -> & _).
  rewrite app_length, blen_app. split.
  - destruct t; [easy|cbn; lia].
  - apply N.eqb_neq. destruct (N.eq_0_gt_0_cases (blen t)) as [Hz|]; [|lia].
    now apply blen_nil_iff in Hz.
Qed.

Lemma advances_esc_like p s q r (t : str) : q = p ++ t -> s = t ++ r -> t <> [] ->
  exists t, t <> [] /\ s = t ++ r /\ q = p ++ t.
Proof. eauto. Qed.

Lemma c_parameter_advances ix : advances (fun p s => c_parameter p s ix).
Proof.
  intros p s q r a H. pose proof (par_ok_spec p s ix) as Hp.
  destruct (par_ok s) as [[t r']|]; [|now rewrite H in Hp].
  destruct Hp as [-> Hp]. rewrite Hp in H. injection H as <- <- _.
  exists (c_ "{" :: t ++ [c_ "}"]). split; [easy|]. split; [|reflexivity].
  cbn. now rewrite <- app_assoc.
Qed.
Lemma c_optional_advances : advances c_optional.
Proof.
  intros p s q r a H. pose proof (opt_ok_spec p s) as Hp.
  destruct (opt_ok s) as [[t r']|]; [|now rewrite H in Hp].
  destruct Hp as [-> Hp]. rewrite Hp in H. injection H as <- <- _.
  exists (c_ "(" :: t ++ [c_ ")"]). split; [easy|]. split; [|reflexivity].
  cbn. now rewrite <- app_assoc.
Qed.
Lemma c_text_ok p s q r x :
  c_text p s = COk q r x -> exists t, x = (p, t) /\ q = p ++ t /\ s = t ++ r /\ t <> [] /\
    scan is_without_whitespace s = (t, r) /\ stop r = StopOk.
Proof.
  unfold c_text. destruct (c_esc is_without_whitespace p s) as [q' r' [p' t]|e|e] eqn:E; [|easy..].
  apply c_esc_ok in E as (t' & Et & -> & Hs & Hscan & Hstop). injection Et as -> ->.
  destruct t' as [|c t']; [easy|]. injection 1 as <- <- <-. exists (c :: t'). easy.
Qed.
Lemma c_text_advances : advances c_text.
Proof. intros p s q r a H. apply c_text_ok in H as (t & _ & ? & ? & ? & _). eauto. Qed.
Lemma c_alternative_advances : advances c_alternative.
Proof.
  intros p s q r a. unfold c_alternative.
  destruct (c_optional p s) as [q' r' a'|e|e] eqn:E; [|destruct (c_text p s) as [q' r' a'|e'|e'] eqn:E'|]; try easy.
  - injection 1 as <- <- _. now apply c_optional_advances in E.
  - injection 1 as <- <- _. now apply c_text_advances in E'.
Qed.

Fixpoint c_many {A} (fuel : nat) (P : str -> str -> cres A) (p s : str) : list A * cres unit :=
  match fuel with
  | O => ([], CErr ENeeded)
  | S fuel' =>
      match P p s with
      | CErr _ => ([], COk p s tt)
      | CFail e => ([], CFail e)
      | COk q r a => let '(l, c) := c_many fuel' P q r in (a :: l, c)
      end
  end.

Lemma many1_loop_at {A B} (Q : parser B) (P : str -> str -> cres A) (g : A -> B) o l :
  advances P -> (forall p s, Q (at_ o l p s) = lift o l g (P p s)) ->
  forall fuel p s acc, (List.length s < fuel)%nat ->
    many1_loop fuel Q acc (at_ o l p s)
    = let '(x, c) := c_many fuel P p s in lift o l (fun _ => rev acc ++ map g x) c.
Proof.
  intros HP HQ. induction fuel as [|fuel IH]; intros p s acc Hf; [lia|].
  cbn [many1_loop c_many]. rewrite HQ. destruct (P p s) as [q r a|e|e] eqn:E; cbn [lift].
  - rewrite !input_len_at. destruct (advances_shorter _ _ _ _ _ _ HP E) as [Hl ->].
    rewrite IH by lia. destruct (c_many fuel P q r) as [x c]. cbn [rev map].
    destruct c; cbn; [|easy..]. now rewrite <- app_assoc.
  - now rewrite app_nil_r.
  - reflexivity.
Qed.

Definition c_branch (p s : str) : cres (single_alternation text_at) :=
  match c_alternative p s with
  | CErr _ => CErr (Other (p, s) KMany1)
  | CFail e => CFail e
  | COk q r a =>
      let '(x, c) := c_many (S (List.length r)) c_alternative q r in c_map (fun _ => a :: x) c
  end.

Lemma c_alternative_err p s e : c_alternative p s = CErr e -> e = Other (p, s) KAlt.
Proof.
  unfold c_alternative. destruct (c_optional p s); [easy| |easy].
  destruct (c_text p s); [easy| |easy]. now injection 1 as <-.
Qed.

Lemma branch_at o l p s :
  many1 parse_alternative (at_ o l p s)
  = lift o l (map (map_alternative (span_at o l))) (c_branch p s).
Proof.
  unfold many1, c_branch. rewrite parse_alternative_at.
  destruct (c_alternative p s) as [q r a|e|e] eqn:E; cbn [lift].
  - rewrite (many1_loop_at _ c_alternative (map_alternative (span_at o l)))
      by (apply c_alternative_advances || apply parse_alternative_at || (rewrite frag_at; lia)).
    rewrite frag_at. destruct (c_many _ c_alternative q r) as [x c].
    destruct c; reflexivity.
  - apply c_alternative_err in E as ->. reflexivity.
  - reflexivity.
Qed.

Lemma c_many_ok {A} (P : str -> str -> cres A) :
  advances P ->
  forall fuel p s x q r u, c_many fuel P p s = (x, COk q r u) ->
  exists t, s = t ++ r /\ q = p ++ t.
Proof.
  intros HP. induction fuel as [|fuel IH]; intros p s x q r u; [easy|].
  cbn [c_many]. destruct (P p s) as [q' r' a|e|e] eqn:E.
  - destruct (c_many fuel P q' r') as [x' c] eqn:Ec. injection 1 as <- ->.
    apply HP in E as (t & _ & -> & ->). apply IH in Ec as (t' & -> & ->).
    exists (t ++ t'). now rewrite !app_assoc.
  - injection 1 as <- <- <- _. exists []. now rewrite app_nil_r.
  - easy.
Qed.

Lemma c_branch_advances : advances c_branch.
Proof.
  intros p s q r b. unfold c_branch.
  destruct (c_alternative p s) as [q' r' a|e|e] eqn:E; [|easy..].
  destruct (c_many _ c_alternative q' r') as [x c] eqn:Ec.
  destruct c as [q2 r2 u|e|e]; cbn [c_map]; [|easy..]. injection 1 as <- <- _.
  apply c_alternative_advances in E as (t & Ht & -> & ->).
  apply (c_many_ok _ c_alternative_advances) in Ec as (t' & -> & ->).
  exists (t ++ t'). rewrite !app_assoc. split; [|easy]. destruct t; easy.
Qed.

Fixpoint c_seps (fuel : nat) (p s : str) : alternation text_at * cres unit :=
  match fuel with
  | O => ([], CErr ENeeded)
  | S fuel' =>
      match s with
      | c :: s1 =>
          if c =? c_ "/" then
            match c_branch (p ++ [c]) s1 with
            | CErr _ => ([], COk p s tt)
            | CFail e => ([], CFail e)
            | COk q r b => let '(x, c) := c_seps fuel' q r in (b :: x, c)
            end
          else ([], COk p s tt)
      | [] => ([], COk p s tt)
      end
  end.

Lemma seps_at o l : forall fuel p s acc, (List.length s < fuel)%nat ->
  separated_list1_loop fuel (tag (s_ "/")) (many1 parse_alternative) acc (at_ o l p s)
  = let '(x, c) := c_seps fuel p s in
    lift o l (fun _ => rev acc ++ map_alternation (span_at o l) x) c.
Proof.
  induction fuel as [|fuel IH]; intros p s acc Hf; [lia|].
  cbn [separated_list1_loop c_seps]. change (s_ "/") with [c_ "/"] in *.
  rewrite tag1_at by reflexivity.
  destruct s as [|c s1]; [cbn; now rewrite app_nil_r|].
  rewrite (N.eqb_sym c). destruct (N.eqb_spec (c_ "/") c) as [<-|];
    [|cbn; now rewrite app_nil_r].
  rewrite branch_at. destruct (c_branch (p ++ [c_ "/"]) s1) as [q r b|e|e] eqn:E; cbn [lift].
  - destruct (c_branch_advances _ _ _ _ _ E) as (t & Ht & -> & ->).
    rewrite !input_len_at.
    replace (blen r =? blen (c_ "/" :: t ++ r)) with false.
    2:{ symmetry. apply N.eqb_neq. cbn [blen]. rewrite blen_app.
        pose proof (len_utf8_pos (c_ "/")). lia. }
    rewrite IH by (cbn in Hf; rewrite app_length in Hf; lia).
    destruct (c_seps fuel ((p ++ [c_ "/"]) ++ t) r) as [x c]. destruct c; cbn; [|easy..].
    now rewrite <- app_assoc.
  - now rewrite app_nil_r.
  - reflexivity.
Qed.

Lemma c_seps_ok : forall fuel p s x q r u, c_seps fuel p s = (x, COk q r u) ->
  exists t, s = t ++ r /\ q = p ++ t.
Proof.
  induction fuel as [|fuel IH]; intros p s x q r u; [easy|]. cbn [c_seps].
  destruct s as [|c s1]; [injection 1 as <- <- <- _; exists []; split; [reflexivity|now rewrite app_nil_r]|].
  destruct (c =? c_ "/"); [|injection 1 as <- <- <- _; exists []; split; [reflexivity|now rewrite app_nil_r]].
  destruct (c_branch (p ++ [c]) s1) as [q' r' b|e|e] eqn:E.
  - destruct (c_seps fuel q' r') as [x' c'] eqn:Ec. injection 1 as <- ->.
    apply c_branch_advances in E as (t & _ & -> & ->). apply IH in Ec as (t' & -> & ->).
    exists (c :: t ++ t'). cbn. rewrite <- !app_assoc. easy.
  - injection 1 as <- <- <- _. exists []. split; [reflexivity|now rewrite app_nil_r].
  - easy.
Qed.

Definition starts_slash (s : str) : bool :=
  match s with c :: _ => c =? c_ "/" | [] => false end.

Definition c_alternation (p s : str) : cres (alternation text_at) :=
  match c_branch p s with
  | CFail e => CFail e
  | CErr e => if starts_slash s then CFail (EmptyAlternation (p, [c_ "/"])) else CErr e
  | COk q r b =>
      match c_seps (S (List.length r)) q r with
      | (_, CFail e) => CFail e
      | (_, CErr e) => CErr e
      | (x, COk q' r' _) =>
          if starts_slash r' then CFail (EmptyAlternation (q', [c_ "/"]))
          else match x with
               | [] => CErr (Other (q', r') KTag)
               | _ =>
                   if contains_only_optional (b :: x)
                   then CFail (OnlyOptionalInAlternation
                                 (p, firstn (List.length s - List.length r') s))
                   else COk q' r' (b :: x)
               end
      end
  end.
