(** The byte operations of the model are those of UTF-8. *)
From Verif Require Export SpecBytes ProofParse2.
From Coq Require Import ZArith.
Ltac Zify.zify_post_hook ::= Z.to_euclidean_division_equations.

Local Ltac cases c := unfold utf8, len_utf8; 
  destruct (N.leb_spec c 127); [|destruct (N.leb_spec c 2047); [|destruct (N.leb_spec c 65535)]].
Lemma utf8_length c : N.of_nat (List.length (utf8 c)) = len_utf8 c.
Proof.
  unfold utf8, len_utf8.
  destruct (N.leb_spec c 127), (N.ltb_spec c 128); try lia; [reflexivity|].
  destruct (N.leb_spec c 2047), (N.ltb_spec c 2048); try lia; [reflexivity|].
  destruct (N.leb_spec c 65535), (N.ltb_spec c 65536); try lia; reflexivity.
Qed.
Lemma bytes_length s : N.of_nat (List.length (bytes s)) = blen s.
Proof.
  induction s as [|c s IH]; [reflexivity|]. cbn [bytes flat_map blen]. rewrite app_length, Nat2N.inj_add, utf8_length.
  unfold bytes in IH. now rewrite IH.
Qed.
Lemma bytes_app s t : bytes (s ++ t) = bytes s ++ bytes t.
Proof. apply flat_map_app. Qed.
Lemma utf8_newlines c : N.of_nat (count_occ N.eq_dec (utf8 c) 10) = if c =? 10 then 1 else 0.
Proof.
  unfold utf8. destruct (N.leb_spec c 127).
  - cbn [count_occ]. destruct (N.eq_dec c 10) as [->|H']; [reflexivity|]. apply N.eqb_neq in H'. now rewrite H'.
  - replace (c =? 10) with false by (symmetry; apply N.eqb_neq; lia).
    assert (H' : ~ In 10 (utf8 c)).
    { unfold utf8. replace (c <=? 127) with false by (symmetry; apply N.leb_gt; lia).
      destruct (c <=? 2047); [|destruct (c <=? 65535)]; cbn [In]; intros H'; 
        repeat (destruct H' as [H'|H']; [lia|]); easy. }
    unfold utf8 in H'. replace (c <=? 127) with false in H' by (symmetry; apply N.leb_gt; lia).
    rewrite (proj1 (count_occ_not_In N.eq_dec _ 10) H'). reflexivity.
Qed.
Lemma bytes_newlines s : N.of_nat (count_occ N.eq_dec (bytes s) 10) = newlines s.
Proof.
  induction s as [|c s IH]; [reflexivity|]. cbn [bytes flat_map newlines].
  rewrite count_occ_app, Nat2N.inj_add, utf8_newlines. unfold bytes in IH. now rewrite IH.
Qed.
(** The first byte does not continue, the others do. *)
Lemma utf8_shape c : exists b l, utf8 c = b :: l /\ ~ continuation b /\ Forall continuation l.
Proof.
  unfold utf8, continuation. destruct (N.leb_spec c 127); [|destruct (N.leb_spec c 2047); [|destruct (N.leb_spec c 65535)]];
    eexists _, _; (split; [reflexivity|]); (split; [lia|]); repeat constructor; lia.
Qed.
(** No two strings have the same bytes. *)
Lemma cons_inj {A} (a b : A) l m : a :: l = b :: m -> a = b /\ l = m.
Proof. intros E. injection E as -> ->. auto. Qed.
Lemma utf8_prefix c d x y : utf8 c ++ x = utf8 d ++ y -> c = d /\ x = y.
Proof.
  unfold utf8.
  destruct (N.leb_spec c 127), (N.leb_spec d 127);
  [|destruct (N.leb_spec d 2047); [|destruct (N.leb_spec d 65535)]
   |destruct (N.leb_spec c 2047); [|destruct (N.leb_spec c 65535)]
   |destruct (N.leb_spec c 2047); [|destruct (N.leb_spec c 65535)]; (destruct (N.leb_spec d 2047); [|destruct (N.leb_spec d 65535)])];
  cbn [app]; intros E; repeat (apply cons_inj in E; destruct E as [? E]); try (split; [lia|exact E]); lia.
Qed.
Lemma bytes_inj s : forall t, bytes s = bytes t -> s = t.
Proof.
  induction s as [|c s IH]; intros [|d t] E; [reflexivity| | |].
  - destruct (utf8_shape d) as (b & l & H & _). cbn [bytes flat_map] in E. now rewrite H in E.
  - destruct (utf8_shape c) as (b & l & H & _). cbn [bytes flat_map] in E. now rewrite H in E.
  - cbn [bytes flat_map] in E. apply utf8_prefix in E as [-> E]. f_equal. now apply IH.
Qed.

(** ** Boundaries *)
Lemma boundary_zero s : boundary (bytes s) 0.
Proof.
  destruct s as [|c s]; [now left|]. right. destruct (utf8_shape c) as (b & l & H & H' & _).
  exists b. cbn [bytes flat_map]. now rewrite H.
Qed.
Lemma boundary_skip c s n : boundary (bytes (c :: s)) (len_utf8 c + n) <-> boundary (bytes s) n.
Proof.
  unfold boundary. change (bytes (c :: s)) with (utf8 c ++ bytes s).
  rewrite app_length, Nat2N.inj_add, utf8_length, N2Nat.inj_add.
  assert (H : N.to_nat (len_utf8 c) = List.length (utf8 c)) by (rewrite <- utf8_length; apply Nat2N.id).
  rewrite H, nth_error_app2 by lia.
  replace (List.length (utf8 c) + N.to_nat n - List.length (utf8 c))%nat with (N.to_nat n) by lia.
  split; intros [E|E]; [left; lia|now right|left; lia|now right].
Qed.
Lemma boundary_inside c s n : 0 < n -> n < len_utf8 c -> ~ boundary (bytes (c :: s)) n.
Proof.
  intros H1 H2 H. change (bytes (c :: s)) with (utf8 c ++ bytes s) in H.
  pose proof (utf8_length c) as Hl. destruct H as [H|(b & Hb & Hc)].
  - rewrite app_length, Nat2N.inj_add in H. lia.
  - rewrite nth_error_app1 in Hb by lia. destruct (utf8_shape c) as (b0 & l & E & _ & Hall).
    rewrite E in Hb. destruct (N.to_nat n) as [|k] eqn:Ek; [lia|]. cbn [nth_error] in Hb.
    apply Hc. apply nth_error_In in Hb. eapply Forall_forall in Hall; eassumption.
Qed.
Lemma len_pos c : 0 < len_utf8 c.
Proof. unfold len_utf8. destruct (c <? 128), (c <? 2048), (c <? 65536); lia. Qed.
Lemma boundary_iff s : forall n, boundary (bytes s) n <-> exists p q, s = p ++ q /\ blen p = n.
Proof.
  induction s as [|c s IH]; intros n.
  - split.
    + intros [H|(b & H & _)]; [|now destruct (N.to_nat n)]. exists [], []. split; [reflexivity|]. exact (eq_sym H).
    + intros (p & q & E & <-). symmetry in E. apply app_eq_nil in E as [-> ->]. now left.
  - split.
    + intros H. destruct (N.eq_dec n 0) as [->|Hn]; [exists [], (c :: s); auto|].
      destruct (N.lt_ge_cases n (len_utf8 c)) as [Hl|Hl]; [elim (boundary_inside c s n); auto; lia|].
      replace n with (len_utf8 c + (n - len_utf8 c)) in H by lia. apply boundary_skip, IH in H as (p & q & -> & H).
      exists (c :: p), q. split; [reflexivity|]. cbn [blen]. lia.
    + intros ([|d p] & q & E & <-); [apply boundary_zero|]. injection E as <- ->.
      cbn [blen]. apply boundary_skip, IH. eauto.
Qed.

(** ** Slices *)
Lemma take_bytes_iff s : forall n p, take_bytes n s = Some p <-> exists q, s = p ++ q /\ blen p = n.
Proof.
  induction s as [|c s IH]; intros n p; cbn [take_bytes].
  - destruct (N.eqb_spec n 0) as [->|Hn].
    + split; [intros E; injection E as <-; now exists []|]. intros (q & E & H).
      symmetry in E. now apply app_eq_nil in E as [-> ->].
    + split; [easy|]. intros (q & E & H). symmetry in E. apply app_eq_nil in E as [-> ->]. now elim Hn.
  - destruct (N.eqb_spec n 0) as [->|Hn].
    + split; [intros E; injection E as <-; now exists (c :: s)|]. intros (q & E & H).
      destruct p as [|d p]; [reflexivity|]. cbn [blen] in H. pose proof (len_pos d). lia.
    + destruct (N.ltb_spec n (len_utf8 c)) as [Hl|Hl].
      * split; [easy|]. intros (q & E & H). destruct p as [|d p]; [now elim Hn|].
        injection E as -> _. cbn [blen] in H. lia.
      * specialize (IH (n - len_utf8 c)). destruct (take_bytes (n - len_utf8 c) s) as [t|].
        -- split.
           ++ intros E. injection E as <-. destruct (proj1 (IH t) eq_refl) as (q & -> & H).
              exists q. split; [reflexivity|]. cbn [blen]. lia.
           ++ intros (q & E & H). destruct p as [|d p]; [now elim Hn|]. injection E as <- E.
              cbn [blen] in H. assert (Hp : Some t = Some p) by (apply IH; exists q; split; [assumption|lia]).
              now injection Hp as ->.
        -- split; [easy|]. intros (q & E & H). destruct p as [|d p]; [now elim Hn|]. injection E as <- E.
           cbn [blen] in H. assert (Hp : None = Some p) by (apply IH; exists q; split; [assumption|lia]). easy.
Qed.
Lemma drop_bytes_iff s : forall n q, drop_bytes n s = Some q <-> exists p, s = p ++ q /\ blen p = n.
Proof.
  induction s as [|c s IH]; intros n q; cbn [drop_bytes].
  - destruct (N.eqb_spec n 0) as [->|Hn].
    + split; [intros E; injection E as <-; now exists []|]. intros (p & E & H).
      symmetry in E. now apply app_eq_nil in E as [-> ->].
    + split; [easy|]. intros (p & E & H). symmetry in E. apply app_eq_nil in E as [-> ->]. now elim Hn.
  - destruct (N.eqb_spec n 0) as [->|Hn].
    + split; [intros E; injection E as <-; now exists []|]. intros (p & E & H).
      destruct p as [|d p]; [cbn in E; now rewrite E|]. cbn [blen] in H. pose proof (len_pos d). lia.
    + destruct (N.ltb_spec n (len_utf8 c)) as [Hl|Hl].
      * split; [easy|]. intros (p & E & H). destruct p as [|d p]; [now elim Hn|].
        injection E as -> _. cbn [blen] in H. lia.
      * rewrite IH. split.
        -- intros (p & -> & H). exists (c :: p). split; [reflexivity|]. cbn [blen]. lia.
        -- intros (p & E & H). destruct p as [|d p]; [now elim Hn|]. injection E as <- ->.
           exists p. split; [reflexivity|]. cbn [blen] in H. lia.
Qed.
Lemma firstn_bytes p q : firstn (N.to_nat (blen p)) (bytes (p ++ q)) = bytes p.
Proof.
  rewrite <- bytes_length, Nat2N.id, bytes_app. rewrite firstn_app, firstn_all.
  replace (_ - _)%nat with 0%nat by lia. cbn [firstn]. apply app_nil_r.
Qed.
Lemma skipn_bytes p q : skipn (N.to_nat (blen p)) (bytes (p ++ q)) = bytes q.
Proof.
  rewrite <- bytes_length, Nat2N.id, bytes_app. rewrite skipn_app, skipn_all.
  replace (_ - _)%nat with 0%nat by lia. reflexivity.
Qed.
(** [&s[..n]] and [&s[n..]]: the first [n] bytes, and the others, or a panic if [n] is no boundary. *)
Lemma slices n s :
  match take_bytes n s, drop_bytes n s with
  | Some p, Some q => s = p ++ q /\ bytes p = firstn (N.to_nat n) (bytes s) /\ bytes q = skipn (N.to_nat n) (bytes s) /\
                      boundary (bytes s) n /\ N.of_nat (List.length (bytes p)) = n
  | None, None => ~ boundary (bytes s) n
  | _, _ => False
  end.
Proof.
  pose proof (take_bytes_iff s n) as Ht. pose proof (drop_bytes_iff s n) as Hd.
  destruct (take_bytes n s) as [p|], (drop_bytes n s) as [q|].
  - destruct (proj1 (Ht p) eq_refl) as (q' & E1 & H1). destruct (proj1 (Hd q) eq_refl) as (p' & E2 & H2).
    assert (Hq : Some q = Some q') by (apply Hd; eauto). injection Hq as ->.
    split; [assumption|]. subst n s. rewrite firstn_bytes, skipn_bytes, bytes_length.
    repeat split; auto. apply boundary_iff. eauto.
  - destruct (proj1 (Ht p) eq_refl) as (q' & E1 & H1). assert (None = Some q') by (apply Hd; eauto). easy.
  - destruct (proj1 (Hd q) eq_refl) as (p' & E1 & H1). assert (None = Some p') by (apply Ht; eauto). easy.
  - intros H. apply boundary_iff in H as (p & q & E & H). assert (None = Some p) by (apply Ht; eauto). easy.
Qed.

(** ** Spans *)
Lemma occurs_bytes s i : occurs_at 0 1 s i -> span_in_bytes s i.
Proof.
  intros (p & q & -> & H1 & H2). unfold span_in_bytes, slice. rewrite N.add_0_l in H1.
  rewrite bytes_length, H1, skipn_bytes, firstn_bytes, firstn_bytes, bytes_newlines.
  split; [reflexivity|]. split; [|split; [|split]].
  - rewrite bytes_length, !blen_app. lia.
  - apply boundary_iff. eauto.
  - apply boundary_iff. exists (p ++ frag i), q. split; [now rewrite app_assoc|].
    now rewrite blen_app.
  - exact H2.
Qed.
Lemma parsed_bytes s e i : addressable s -> expression_parse s = RetOk e -> In i (inputs e) -> span_in_bytes s i.
Proof.
  intros Hs H Hi. apply occurs_bytes. pose proof (spans_exact s e Hs H) as Ha.
  eapply Forall_forall in Ha; eassumption.
Qed.
Lemma failed_bytes s er : addressable s -> expression_parse s = RetErr er ->
  exists i, error_span er = Some i /\ frag i <> [] /\ span_in_bytes s i.
Proof.
  intros Hs H. destruct (error_occurs s er Hs H) as (i & H1 & H2 & H3). exists i.
  split; [assumption|]. split; [assumption|]. now apply occurs_bytes.
Qed.
