(** Bounds on the steps of the parsers, continued. *)
From Verif Require Export ProofSteps2.

Lemma starts_with_app t : forall s, starts_with t s = true -> exists r, s = t ++ r.
Proof.
  induction t as [|c t IH]; intros s H; [now exists s|]. destruct s as [|d s]; [easy|].
  cbn in H. apply andb_true_iff in H as [Hc H]. apply N.eqb_eq in Hc as ->.
  apply IH in H as [r ->]. now exists r.
Qed.
Lemma tag_within t i : within (fun _ => List.length t) 1 1 (1 + List.length t) (1 + List.length t) i (tag_steps t i).
Proof.
  unfold within, tag_steps. rewrite fst_tick, snd_tick.
  destruct (starts_with t (frag i)) eqn:E; [|cbn [fst snd]; lia].
  apply starts_with_app in E as [r Hr]. rewrite (span_any i), Hr. unfold split_result_steps.
  cbn [fst snd]. rewrite frag_at, split_at by reflexivity. rewrite chars_app. unfold len, from.
  rewrite !frag_at, app_length. split; [eauto|]. lia.
Qed.

Definition opt_within (i : span) (x : counted (result (optional span))) : Prop :=
  within (fun _ => 2%nat) 13 48 0 3 i x.
Definition par_within (i : span) (x : counted (result (parameter span) * N)) : Prop :=
  within (fun _ => 2%nat) 13 48 0 3 i (fst (fst x), snd x).

(** The steps of the [fail] closures: something nested is parsed at most once. *)
Lemma closing_steps {A} f t (x : counted (result A)) i (no : counted bad) (yes : A -> counted bad) :
  f bs = false -> List.length t = 1%nat -> within (fun _ => 2%nat) 13 48 0 3 i x ->
  (forall a, snd (yes a) <= len i)%nat -> (snd no <= 1)%nat ->
  (snd (if_ok_steps
    (bind_steps x (fun i1 a =>
     bind_steps (escaped_reserved_chars0_steps (take_while_steps f) i1) (fun i2 _ =>
     bind_steps (tag_steps t i2) (fun i3 _ => (Ok i3 a, 0%nat))))) yes no)
   <= 48 * len i + 22)%nat.
Proof.
  intros Hf Ht Hx Hy Hn. unfold if_ok_steps. rewrite snd_then. unfold within in Hx.
  unfold bind_steps at 1. rewrite snd_then. unfold bind_steps at 3. rewrite fst_then.
  destruct (fst x) as [i1 a|[]]; cbn [fst snd]; try lia.
  destruct Hx as (_ & Hl & Hs). pose proof (esc_within f i1 Hf) as He. unfold within in He.
  unfold bind_steps. rewrite !snd_then, !fst_then.
  destruct (fst (escaped_reserved_chars0_steps (take_while_steps f) i1)) as [i2 p|[]]; cbn [fst snd]; try lia.
  rewrite !snd_then, !fst_then. pose proof (tag_within t i2) as Hg. unfold within in Hg. rewrite Ht in Hg.
  destruct He as (_ & He & He'). 
  destruct (fst (tag_steps t i2)) as [i3 q|[]]; cbn [fst snd]; specialize (Hy a); try lia.
Qed.

Lemma peeked_steps {A} (p : counted_parser A) i (no : counted bad) (yes : A -> counted bad) :
  within (fun _ => 2%nat) 13 48 0 3 i (p i) ->
  (forall a, snd (yes a) <= len i)%nat -> (snd no <= 1)%nat ->
  (snd (if_ok_steps (peek_steps p i) yes no) <= 48 * len i + 22)%nat.
Proof.
  intros Hx Hy Hn. unfold if_ok_steps, peek_steps. rewrite !snd_then, !snd_tick, !fst_tick, !snd_then, !fst_then.
  unfold within in Hx.
  destruct (fst (p i)) as [i1 a|[]]; cbn [fst snd]; try lia.
  destruct Hx as (_ & Hl & Hs). specialize (Hy a). lia.
Qed.

Definition no_error (b : bad) : Prop := match b with BError _ => False | _ => True end.
Lemma fail_take_no_error e i n : no_error (fst (fail_take_steps e i n)).
Proof. unfold fail_take_steps, fail_take. cbn [fst]. now destruct (take i n). Qed.
Lemma if_ok_no_error {A} (x : counted (result A)) yes no :
  (forall a, no_error (fst (yes a))) -> no_error (fst no) -> no_error (fst (if_ok_steps x yes no)).
Proof.
  intros Hy Hn. unfold if_ok_steps. rewrite fst_then. destruct (fst x) as [i a|[]]; cbn [fst]; try exact I;
    try apply Hy; exact Hn.
Qed.
Lemma fail_take_len e i n : (snd (fail_take_steps e i n) <= len i)%nat.
Proof. apply chars_length. Qed.
Lemma fail_take_one_step e i : (snd (fail_take_steps e i 1) <= 1)%nat.
Proof. apply (chars_bytes 1). Qed.
Lemma esc_pos f i : (1 <= snd (escaped_reserved_chars0_steps (take_while_steps f) i))%nat.
Proof. unfold escaped_reserved_chars0_steps, map_err_steps. rewrite snd_tick. lia. Qed.

Lemma tag_bad t i b : tag t i = Bad b -> exists e, b = BError e.
Proof.
  unfold tag. destruct (starts_with t (frag i)) eqn:E; [|injection 1 as <-; eauto].
  apply starts_with_app in E as [r Hr]. rewrite (span_any i), Hr, split_at by reflexivity. easy.
Qed.

(** A bracketed item: opening, content, closing, or a failure. *)
Lemma bracket_within {A} opening f closing (fail : span -> span -> counted bad)
    (finish : span -> span -> counted (result A)) i :
  f bs = false -> List.length opening = 1%nat -> List.length closing = 1%nat ->
  (forall j b, no_error (fst (fail j b)) /\ (snd (fail j b) <= 48 * len j + 23)%nat) ->
  (forall j p, (snd (finish j p) <= 2)%nat /\
    match fst (finish j p) with Ok r a => r = j /\ snd (finish j p) = 0%nat | Bad b => no_error b end) ->
  within (fun _ => 2%nat) 13 48 0 3 i
    (tick 1 (then_ (tag_steps opening i) (fun x =>
      match x with
      | Bad b => (Bad b, 0%nat)
      | Ok input1 o =>
          then_ (escaped_reserved_chars0_steps (take_while_steps f) input1) (fun y =>
          match y with
          | Bad b => (Bad b, 0%nat)
          | Ok input2 p =>
              then_ (map_err_steps (tag_steps closing) (fun _ => fail input2 o) input2)
              (fun z =>
              match z with
              | Bad b => (Bad b, 0%nat)
              | Ok input3 _ => finish input3 p
              end)
          end)
      end))).
Proof.
  intros Hf Ho Hc Hfail Hfin. unfold within. rewrite fst_tick, snd_tick, fst_then, snd_then.
  pose proof (tag_within opening i) as H1. unfold within in H1. rewrite Ho in H1.
  destruct (fst (tag_steps opening i)) as [i1 o|b] eqn:T1; rewrite tag_same in T1.
  2:{ apply tag_bad in T1 as [e ->]. cbn [fst snd]. lia. }
  destruct H1 as (F1 & L1 & S1). rewrite fst_then, snd_then.
  pose proof (esc_within f i1 Hf) as H2. pose proof (esc_pos f i1) as P2. unfold within in H2.
  destruct (fst (escaped_reserved_chars0_steps (take_while_steps f) i1)) as [i2 p|[]]; cbn [fst snd]; try lia.
  destruct H2 as (F2 & L2 & S2). pose proof (from_len _ _ F2) as L2'. rewrite fst_then, snd_then.
  unfold map_err_steps. rewrite fst_tick, snd_tick, fst_then, snd_then.
  pose proof (tag_within closing i2) as H3. unfold within in H3. rewrite Hc in H3.
  destruct (Hfail i2 o) as [E1 E2].
  destruct (fst (tag_steps closing i2)) as [i3 q|b] eqn:T3; rewrite tag_same in T3.
  - destruct H3 as (F3 & L3 & S3). cbn [fst snd]. destruct (Hfin i3 p) as [G1 G2].
    destruct (fst (finish i3 p)) as [r a|b].
    + destruct G2 as [-> G2]. split; [|lia]. eapply from_trans; [exact F3|]. eapply from_trans; [exact F2|exact F1].
    + destruct b; cbn in G2; [easy|lia..].
  - apply tag_bad in T3 as [e ->]. rewrite fst_then, snd_then. cbn [fst snd].
    destruct (fst (fail i2 o)); cbn in E1; try easy; lia.
Qed.

Lemma is_name_bs : is_name bs = false. Proof. reflexivity. Qed.
Lemma is_in_optional_bs : is_in_optional bs = false. Proof. reflexivity. Qed.
Lemma is_without_whitespace_bs : is_without_whitespace bs = false. Proof. reflexivity. Qed.

Lemma succ_bound a b : (a <= b + 22)%nat -> (1 + a <= b + 23)%nat.
Proof. lia. Qed.
Definition fst2 {A B} (x : counted (A * B)) : counted A := (fst (fst x), snd x).
Definition par_fail (d : nat) (inp opening_brace : span) : counted bad := tick 1
  match iter_elements inp with
  | c :: _ =>
      if c =? c_ "{" then
        if_ok_steps
          (bind_steps (let x := parameter_d_steps d inp 0 in (fst (fst x), snd x)) (fun i1 par =>
           bind_steps (escaped_reserved_chars0_steps (take_while_steps is_name) i1) (fun i2 _ =>
           bind_steps (tag_steps (s_ "}") i2) (fun i3 _ => (Ok i3 par, 0%nat)))))
          (fun par => fail_take_steps NestedParameter inp (input_len (par_input par) + 2))
          (fail_take_steps UnescapedReservedCharacter inp 1)
      else if c =? c_ "(" then
        if_ok_steps (peek_steps (optional_d_steps d) inp)
          (fun opt => fail_take_steps OptionalInParameter inp (input_len (opt_input opt) + 2))
          (fail_take_steps UnescapedReservedCharacter inp 1)
      else if contains reserved_chars c then
        fail_take_steps UnescapedReservedCharacter inp 1
      else (BFailure (UnfinishedParameter opening_brace), 0%nat)
  | [] => (BFailure (UnfinishedParameter opening_brace), 0%nat)
  end.
Lemma parameter_steps_S d i ix : fst2 (parameter_d_steps (S d) i ix) =
    tick 1 (then_ (tag_steps (s_ "{") i) (fun x =>
      match x with
      | Bad b => (Bad b, 0%nat)
      | Ok input1 o =>
          then_ (escaped_reserved_chars0_steps (take_while_steps is_name) input1) (fun y =>
          match y with
          | Bad b => (Bad b, 0%nat)
          | Ok input2 p =>
              then_ (map_err_steps (tag_steps (s_ "}")) (fun _ => par_fail d input2 o) input2)
              (fun z =>
              match z with
              | Bad b => (Bad b, 0%nat)
              | Ok input3 _ =>
                  if usize_max <? ix + 1 then (Bad BPanic, 0%nat)
                  else (Ok input3 (mkParameter p (ix + 1 - 1)), 0%nat)
              end)
          end)
      end)).
Proof.
  cbn [parameter_d_steps]. unfold then_, tick, fst2. cbn [fst snd].
  destruct (fst (tag_steps (s_ "{") i)) as [i1 o|b]; [|reflexivity]. cbn [fst snd].
  destruct (fst (escaped_reserved_chars0_steps (take_while_steps is_name) i1)) as [i2 p|b]; [|reflexivity].
  cbn [fst snd]. unfold par_fail.
  match goal with |- context [map_err_steps ?t ?f ?j] => set (m := map_err_steps t f j) end.
  match goal with |- context [map_err_steps ?t ?f ?j] => change (map_err_steps t f j) with m end.
  destruct (fst m) as [i3 q|b]; [|reflexivity]. now destruct (usize_max <? ix + 1).
Qed.

Lemma depth_within d : (forall i ix, par_within i (parameter_d_steps d i ix)) /\
                       (forall i, opt_within i (optional_d_steps d i)).
Proof.
  induction d as [|d [IHp IHo]]; [split; unfold par_within, opt_within, within; cbn; lia|]. split.
  - intros i ix. unfold par_within. fold (fst2 (parameter_d_steps (S d) i ix)). rewrite parameter_steps_S.
    apply bracket_within; try reflexivity.
    + intros j b. unfold par_fail. rewrite fst_tick, snd_tick.
      destruct (iter_elements j) as [|c r]; [cbn; split; [exact I|lia]|].
      destruct (c =? c_ "{"); [|destruct (c =? c_ "("); [|destruct (contains reserved_chars c)]].
      * split; [apply if_ok_no_error; intros; apply fail_take_no_error|].
        apply succ_bound, closing_steps; try reflexivity; [apply IHp|intros; apply fail_take_len|apply fail_take_one_step].
      * split; [apply if_ok_no_error; intros; apply fail_take_no_error|].
        apply succ_bound, peeked_steps; [apply IHo|intros; apply fail_take_len|apply fail_take_one_step].
      * split; [apply fail_take_no_error|].
        pose proof (fail_take_one_step UnescapedReservedCharacter j). lia.
      * cbn; split; [exact I|lia].
    + intros j p. destruct (usize_max <? ix + 1); cbn; split; lia || easy.
  - intros i. unfold opt_within. cbn [optional_d_steps].
    apply bracket_within; try reflexivity.
    + intros j b. rewrite fst_tick, snd_tick.
      destruct (iter_elements j) as [|c r]; [cbn; split; [exact I|lia]|].
      destruct (c =? c_ "("); [|destruct (c =? c_ "{"); [|destruct (c =? c_ "/"); [|destruct (contains reserved_chars c)]]].
      * split; [apply if_ok_no_error; intros; apply fail_take_no_error|].
        apply succ_bound, closing_steps; try reflexivity; [apply IHo|intros; apply fail_take_len|apply fail_take_one_step].
      * split; [apply if_ok_no_error; intros; apply fail_take_no_error|].
        apply succ_bound, peeked_steps; [apply IHp|intros; apply fail_take_len|apply fail_take_one_step].
      * split; [apply fail_take_no_error|].
        pose proof (fail_take_one_step AlternationInOptional j). lia.
      * split; [apply fail_take_no_error|].
        pose proof (fail_take_one_step UnescapedReservedCharacter j). lia.
      * cbn; split; [exact I|lia].
    + intros j p. destruct (input_len p =? 0); [|cbn; split; lia || easy].
      rewrite fst_then, snd_then. cbn [fst snd].
      pose proof (fail_take_no_error EmptyOptional i 2). pose proof (chars_bytes 2 (frag i)) as H2.
      unfold fail_take_steps in *. cbn [fst snd] in *. change (N.to_nat 2) with 2%nat in H2. split; [lia|assumption].
Qed.
