(** Bounds on the steps of the parsers. *)
From Verif Require Export ProofSteps ProofParse2.

Definition len (i : span) : nat := List.length (frag i).
Definition from (r i : span) : Prop := exists t, frag i = t ++ frag r.

(** At most [ko] steps per character consumed and [e] more when it succeeds with something of size
    [w], at most [f] when it does not apply, at most [kb] per character and [e] more otherwise. *)
Definition within {A} (w : A -> nat) (ko kb e f : nat) (i : span) (x : counted (result A)) : Prop :=
  match fst x with
  | Ok r a => from r i /\ len r + w a <= len i /\ snd x <= ko * (len i - len r) + e
  | Bad (BError _) => snd x <= f
  | Bad _ => snd x <= kb * len i + e
  end%nat.

Lemma snd_tick {A} n (x : counted A) : snd (tick n x) = (n + snd x)%nat.
Proof. reflexivity. Qed.
Lemma snd_then {A B} (x : counted A) (k : A -> counted B) :
  snd (then_ x k) = (snd x + snd (k (fst x)))%nat.
Proof. reflexivity. Qed.
Lemma from_refl i : from i i. Proof. now exists []. Qed.
Lemma from_trans a b c : from a b -> from b c -> from a c.
Proof. intros [t Ht] [u Hu]. exists (u ++ t). now rewrite Hu, Ht, app_assoc. Qed.
Lemma from_len r i : from r i -> (len r <= len i)%nat.
Proof. intros [t Ht]. unfold len. rewrite Ht, app_length. lia. Qed.
Lemma from_input_len r i : from r i -> (len r < len i)%nat -> input_len r =? input_len i = false.
Proof.
  intros [t Ht] H. apply N.eqb_neq. unfold len, input_len in *. rewrite Ht, app_length in *.
  rewrite blen_app. destruct t as [|c t]; [cbn in H; lia|]. cbn [blen]. pose proof (len_utf8_pos c). lia.
Qed.

Lemma take_bytes_spec s : forall n p, take_bytes n s = Some p ->
  n = blen p /\ exists q, drop_bytes n s = Some q /\ s = p ++ q.
Proof.
  induction s as [|c s IH]; intros n p; cbn [take_bytes drop_bytes].
  - destruct (N.eqb_spec n 0) as [->|]; [|easy]. injection 1 as <-. split; [reflexivity|]. now exists [].
  - destruct (N.eqb_spec n 0) as [->|].
    + injection 1 as <-. split; [reflexivity|]. eexists. split; reflexivity.
    + destruct (N.ltb_spec n (len_utf8 c)); [easy|].
      destruct (take_bytes (n - len_utf8 c) s) as [t|] eqn:E; [|easy]. injection 1 as <-.
      apply IH in E as [En (q & Hq & ->)]. split; [cbn [blen]; lia|]. exists q. now split.
Qed.
Lemma chars_length n s : (chars n s <= List.length s)%nat.
Proof.
  unfold chars. destruct (take_bytes n s) as [p|] eqn:E; [|lia].
  apply take_bytes_spec in E as (_ & q & _ & ->). rewrite app_length. lia.
Qed.
Lemma chars_bytes n s : (chars n s <= N.to_nat n)%nat.
Proof.
  unfold chars. destruct (take_bytes n s) as [p|] eqn:E; [|lia].
  apply take_bytes_spec in E as (-> & _). pose proof (blen_length p). lia.
Qed.
Lemma chars_app t r : chars (blen t) (t ++ r) = List.length t.
Proof. unfold chars. now rewrite take_bytes_app. Qed.
Lemma chars_slice s : (chars (match slice_index_str s 2 with Some k => k | None => 0 end) s <= 2)%nat.
Proof.
  destruct s as [|c [|d s]].
  - cbn. lia.
  - cbn [slice_index_str]. pose proof (chars_bytes 0 [c]). lia.
  - assert (H : slice_index_str (c :: d :: s) 2 = Some (blen [c; d])) by (cbn [slice_index_str]; now destruct s).
    rewrite H. change (c :: d :: s) with ([c; d] ++ s). now rewrite chars_app.
Qed.

Lemma split_within i n : within (fun p => len p) 1 1 0 0 i (split_result_steps i n).
Proof.
  unfold within, split_result_steps, split_result, take_split, take_from, take. cbn [fst snd].
  pose proof (chars_length n (frag i)) as Hl. fold (len i) in Hl. unfold chars in *.
  destruct (take_bytes n (frag i)) as [p|] eqn:E; [|lia].
  apply take_bytes_spec in E as (_ & q & -> & Hq). unfold len, from in *. cbn [frag].
  rewrite Hq, app_length in *. split; [eauto|]. lia.
Qed.

Lemma looked_at_while f s : forall w r, span_while f s = (w, r) ->
  (looked_at (fun c => negb (f c)) s <= List.length w + 1)%nat.
Proof.
  induction s as [|c s IH]; cbn; intros w r H; [lia|]. destruct (f c); cbn.
  - destruct (span_while f s) as [w' r']. injection H as <- <-. cbn. specialize (IH w' r' eq_refl). lia.
  - lia.
Qed.
Lemma take_while_steps_at f o l p s :
  (snd (take_while_steps f (at_ o l p s)) <= 2 * List.length (fst (span_while f s)) + 2)%nat.
Proof.
  unfold take_while_steps, tick. cbn [snd]. rewrite frag_at.
  destruct (span_while f s) as [w r] eqn:E. cbn [fst]. pose proof (looked_at_while _ _ _ _ E) as H.
  rewrite (find_bytes_while _ _ _ _ E). apply span_while_app in E as ->.
  destruct r as [|c r]; unfold split_result_steps; cbn [snd]; rewrite frag_at.
  - rewrite input_len_at, app_nil_r in *. pose proof (chars_length (blen w) w). lia.
  - rewrite chars_app. lia.
Qed.

Lemma escaped0_loop_steps_at (f : char -> bool) o l p : f bs = false ->
  forall fuel (t0 s : str) (cn : bool), (cn = true -> stops f s) ->
  (snd (escaped0_loop_steps fuel (take_while_steps f) (c_ "\") (one_of_steps reserved_chars)
      (at_ o l p (t0 ++ s)) (at_ o l (p ++ t0) s) cn)
   <= 8 * List.length (fst (scan f s)) + List.length t0 + (if cn then 8 else 11))%nat.
Proof.
  intros Hbs. induction fuel as [|fuel IH]; intros t0 s cn Hcn.
  - cbn [escaped0_loop_steps]. rewrite input_len_at, blen_eqb_nil. destruct s as [|c s].
    + unfold tick, whole_steps. cbn [snd]. rewrite frag_at, app_nil_r. destruct cn; lia.
    + cbn [tick snd fst]. destruct cn; lia.
  - cbn [escaped0_loop_steps]. rewrite input_len_at, blen_eqb_nil. destruct s as [|c s].
    { unfold tick, whole_steps. cbn [snd]. rewrite frag_at, app_nil_r. destruct cn; lia. }
    rewrite snd_tick, snd_then.
    pose proof (take_while_steps_at f o l (p ++ t0) (c :: s)) as Htw.
    rewrite take_while_same, take_while_at.
    destruct (span_while f (c :: s)) as [w r] eqn:E. cbn [fst] in Htw.
    pose proof (span_while_app _ _ _ _ E) as Eapp.
    pose proof (span_while_all _ _ _ _ E) as Ew.
    pose proof (span_while_stops _ _ _ _ E) as Est.
    destruct cn.
    + match goal with |- (1 + (_ + snd ?e) <= _)%nat => set (esc := e) end.
      specialize (Hcn eq_refl). cbn in Hcn. 
      assert (Hw : w = []).
      { destruct w as [|d w]; [reflexivity|]. injection Eapp as -> _. cbn in Ew. now rewrite Hcn in Ew. }
      subst w. cbn [List.length] in Htw. clear E Eapp Ew Est.
      assert (He : (snd esc <= 8 * List.length (fst (scan f (c :: s))) + List.length t0 + 5)%nat).
      { unfold esc. rewrite iter_elements_at. unfold tick at 1. cbn [snd]. rewrite bs_eq.
        destruct (N.eqb_spec c bs) as [->|Hne].
        - change (len_utf8 bs) with 1. rewrite ?input_len_at. cbn [blen]. change (len_utf8 bs) with 1.
          destruct (N.leb_spec (1 + blen s) 1) as [|Hgt]; [cbn [snd]; lia|].
          destruct s as [|d s]; [cbn [blen] in Hgt; lia|].
          change (at_ o l (p ++ t0) (bs :: d :: s)) with (at_ o l (p ++ t0) ([bs] ++ d :: s)).
          rewrite take_from_at by reflexivity. unfold then_, tick. cbn [snd fst].
          rewrite frag_at. pose proof (chars_bytes 1 ([bs] ++ d :: s)) as Hch. 
          rewrite one_of_same, one_of_at.
          assert (H1 : (snd (one_of_steps reserved_chars (at_ o l ((p ++ t0) ++ [bs]) (d :: s))) <= 3)%nat).
          { unfold one_of_steps. rewrite iter_elements_at. destruct (contains reserved_chars d) eqn:Hd; [|cbn; lia].
            change (d :: s) with ([d] ++ s). rewrite take_from_at by (cbn [blen]; lia). cbn [snd]. rewrite frag_at.
            pose proof (chars_bytes (len_utf8 d) ([d] ++ s)) as H1. rewrite (reserved_ascii d Hd) in *. lia. }
          destruct (contains reserved_chars d) eqn:Hd.
          + rewrite scan_cons_escape by assumption. rewrite input_len_at, blen_eqb_nil.
            destruct s as [|e s].
            { unfold whole_steps. cbn [snd]. rewrite frag_at. cbn [scan fst List.length].
              change (N.to_nat 1) with 1%nat in Hch. rewrite app_length. cbn [List.length]. lia. }
            replace (t0 ++ bs :: d :: e :: s) with ((t0 ++ [bs; d]) ++ e :: s)
              by (rewrite <- app_assoc; reflexivity).
            replace (((p ++ t0) ++ [bs]) ++ [d]) with (p ++ (t0 ++ [bs; d]))
              by (rewrite <- !app_assoc; reflexivity).
            assert (H2 := IH (t0 ++ [bs; d]) (e :: s) false ltac:(easy)).
            rewrite bs_eq in H2. rewrite app_length in H2. cbn [List.length] in H2.
            change (N.to_nat 1) with 1%nat in Hch.
            destruct (scan f (e :: s)) as [t r']. cbn [fst List.length] in *.
            replace (((p ++ t0) ++ [bs]) ++ [d]) with (p ++ (t0 ++ [bs; d])) in H1
              by (rewrite <- !app_assoc; reflexivity). lia.
          + change (N.to_nat 1) with 1%nat in Hch. cbn [snd from_error_kind]. lia.
        - rewrite offset_at. unfold split_result_steps. cbn [snd]. rewrite frag_at, chars_app. lia. }
      lia.
    + rewrite !input_len_at, blen_eqb_nil. 
      rewrite Eapp in *. rewrite scan_while_app by assumption.
      destruct r as [|d r].
      * unfold whole_steps. cbn [snd]. rewrite frag_at. cbn [scan fst List.length].
        rewrite !app_nil_r in *. rewrite app_length. lia.
      * rewrite app_assoc. rewrite <- (app_assoc p). 
        assert (H2 := IH (t0 ++ w) (d :: r) (blen (d :: r) =? blen (w ++ d :: r))
          ltac:(intros; exact Est)).
        rewrite app_length in H2. destruct (scan f (d :: r)) as [t r']. cbn [fst] in *.
        rewrite app_length. destruct w as [|e w].
        -- cbn [app] in *. rewrite N.eqb_refl in *. cbn [List.length] in *. lia.
        -- assert (Hne : blen (d :: r) =? blen ((e :: w) ++ d :: r) = false).
           { apply N.eqb_neq. rewrite blen_app. cbn [blen]. pose proof (len_utf8_pos e). lia. }
           rewrite Hne in *. cbn [List.length] in *. lia.
Qed.

Lemma esc_steps_at f o l p s : f bs = false ->
  (snd (escaped_reserved_chars0_steps (take_while_steps f) (at_ o l p s))
   <= 8 * List.length (fst (scan f s)) + 17)%nat.
Proof.
  intros Hf. unfold escaped_reserved_chars0_steps, map_err_steps, then_, tick. cbn [snd].
  pose proof (escaped0_loop_steps_at f o l p Hf (2 * List.length s)%nat [] s false ltac:(easy)) as H.
  cbn [app] in H. rewrite app_nil_r in H. cbn [List.length] in H.
  unfold escaped0_steps. rewrite frag_at.
  match goal with |- (1 + (snd ?x + _) <= _)%nat => set (y := x) in * end.
  assert (He : forall b, (snd (escaped_error_steps b) <= 5)%nat).
  { intros [[]| | | |]; unfold escaped_error_steps, tick; cbn [snd]; try lia.
    destruct k; cbn [snd]; try lia. destruct (input_len i =? 1); cbn [snd]; [lia|].
    destruct (1 <? input_len i); cbn [snd]; [|lia]. unfold fail_take_steps. cbn [snd].
    unfold slice_index. pose proof (chars_slice (frag i)). lia. }
  destruct (fst y) as [i a|[]]; cbn [snd]; try lia;
    match goal with |- context [escaped_error_steps ?b] => specialize (He b) end; lia.
Qed.
Definition span_any i : i = at_ (off i) (line i) [] (frag i).
Proof. destruct i as [o l s]. unfold at_, span_at. cbn. f_equal; lia. Qed.

Lemma esc_within f i : f bs = false ->
  within len 8 8 17 0 i (escaped_reserved_chars0_steps (take_while_steps f) i).
Proof.
  intros Hf. rewrite (span_any i). destruct i as [o l s]. cbn [off line frag].
  pose proof (esc_steps_at f o l [] s Hf) as H. unfold within.
  rewrite (esc_same _ _ (take_while_same f)), esc_at by assumption. unfold c_esc.
  destruct (scan f s) as [t r] eqn:E. pose proof (scan_app _ _ _ _ E) as Es. cbn [fst] in H.
  unfold len. rewrite frag_at. subst s. rewrite app_length.
  destruct (stop r); cbn [lift].
  - rewrite frag_at. change (frag (span_at o l ([], t))) with t.
    split; [exists t; reflexivity|]. lia.
  - destruct t; cbn [lift]; lia.
  - lia.
Qed.
Lemma verify_esc_within f i : f bs = false ->
  within (fun _ => 1%nat) 8 8 18 18 i
    (verify_steps (escaped_reserved_chars0_steps (take_while_steps f)) (fun p => 0 <? input_len p) i).
Proof.
  intros Hf. rewrite (span_any i). destruct i as [o l s]. cbn [off line frag].
  pose proof (esc_steps_at f o l [] s Hf) as H. unfold within, verify_steps, then_, tick. cbn [fst snd].
  rewrite (esc_same _ _ (take_while_same f)), esc_at by assumption. unfold c_esc.
  destruct (scan f s) as [t r] eqn:E. pose proof (scan_app _ _ _ _ E) as Es. cbn [fst] in H.
  unfold len. rewrite frag_at. subst s. rewrite app_length.
  destruct (stop r); cbn [lift].
  - cbn [fst snd]. unfold input_len. change (frag (span_at o l ([], t))) with t.
    destruct t as [|c t]; cbn [blen].
    + cbn [List.length] in H. cbn [N.ltb N.compare]. cbn [snd]. lia.
    + pose proof (len_utf8_pos c). destruct (N.ltb_spec 0 (len_utf8 c + blen t)); [|lia].
      rewrite frag_at. cbn [snd List.length] in *. split; [now exists (c :: t)|]. lia.
  - destruct t; cbn [lift fst snd List.length] in *; lia.
  - cbn [fst snd]. lia.
Qed.
