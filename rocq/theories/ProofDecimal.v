(** [Display] of a number is its decimal notation. *)
From Coq Require Import PeanoNat Decimal DecimalString DecimalPos DecimalN.
From Verif Require Export ProofTypes.

Definition acc_value (t : str) (n : N) : N := fold_left (fun n d => n * 10 + d) (digit_values t) n.
Lemma acc_of_uint u a : acc_value (s_ (NilEmpty.string_of_uint u)) (N.pos a) = N.pos (Pos.of_uint_acc u a).
Proof.
  revert a; induction u; intros a; [reflexivity|..];
    cbn [NilEmpty.string_of_uint s_ Pos.of_uint_acc]; unfold acc_value; cbn [digit_values map fold_left];
    match goal with |- fold_left _ _ ?n = N.pos (Pos.of_uint_acc _ ?b) => replace n with (N.pos b) by (cbv [c_ N_of_ascii N_of_digits]; lia) end;
    apply IHu.
Qed.
Lemma value_of_uint u : decimal_value (s_ (NilEmpty.string_of_uint u)) = N.of_uint u.
Proof.
  unfold N.of_uint. induction u; [reflexivity|exact IHu|..]; cbn [NilEmpty.string_of_uint s_ Pos.of_uint];
    rewrite <- acc_of_uint; reflexivity.
Qed.
Lemma nzhead_head u d : nzhead u <> D0 d.
Proof. induction u; cbn; easy. Qed.
Lemma dec_shape n : dec n = s_ "0" /\ n = 0 \/
  dec n = s_ (NilEmpty.string_of_uint (N.to_uint n)) /\ (forall u, N.to_uint n <> D0 u) /\ N.to_uint n <> Nil.
Proof.
  destruct (N.eq_dec n 0) as [->|Hn]; [now left|right].
  assert (E : N.to_uint n = unorm (N.to_uint n)) by (now rewrite <- DecimalN.Unsigned.to_of, DecimalN.Unsigned.of_to).
  assert (Hz : nzhead (N.to_uint n) <> Nil).
  { intros Hz. unfold unorm in E. rewrite Hz in E. apply (f_equal N.of_uint) in E.
    rewrite DecimalN.Unsigned.of_to in E. now apply Hn. }
  unfold unorm in E. destruct (nzhead (N.to_uint n)) eqn:Ez; try easy;
    [now destruct (nzhead_head _ _ Ez)|..]; unfold dec; rewrite E; easy.
Qed.
Lemma dec_decimal n : decimal n (dec n).
Proof.
  split; [apply dec_nonempty|]. split; [|split].
  - eapply Forall_impl; [|apply dec_digits]. intros c [H1 H2]%andb_prop. split; now apply N.leb_le.
  - destruct (dec_shape n) as [[-> ->]|(-> & _)]; [reflexivity|].
    now rewrite value_of_uint, DecimalN.Unsigned.of_to.
  - destruct (dec_shape n) as [[-> ->]|(-> & H & Hn)]; [now left|right].
    intros u. destruct (N.to_uint n); easy || now destruct (H u0).
Qed.
Lemma acc_lower t n : 1 <= n -> 10 ^ N.of_nat (List.length t) <= acc_value t n.
Proof.
  unfold acc_value. enough (forall n, n * 10 ^ N.of_nat (List.length t) <= fold_left (fun n d => n * 10 + d) (digit_values t) n).
  { intros. specialize (H n). nia. }
  clear n. induction t as [|c t IH]; intros n; cbn [digit_values map fold_left List.length].
  - cbn. lia.
  - specialize (IH (n * 10 + (c - c_ "0"))). fold (digit_values t). rewrite Nat2N.inj_succ, N.pow_succ_r'. nia.
Qed.
Lemma decimal_length n t k : decimal n t -> (1 <= k)%nat -> n < 10 ^ N.of_nat k -> (List.length t <= k)%nat.
Proof.
  intros (_ & Hd & Hv & Hz) Hk Hn. destruct t as [|c t]; [cbn; lia|]. cbn [List.length].
  destruct Hz as [Hz|Hz]; [injection Hz as -> ->; cbn; lia|].
  unfold decimal_value in Hv. cbn [digit_values map fold_left] in Hv. fold (digit_values t) in Hv.
  inversion_clear Hd as [|? ? [H1 H2] _].
  assert (c <> c_ "0") by (intros ->; now apply (Hz t)).
  pose proof (acc_lower t (0 * 10 + (c - c_ "0"))). unfold acc_value in H0.
  assert (10 ^ N.of_nat (List.length t) <= n) by (rewrite <- Hv; apply H0; lia).
  assert (10 ^ N.of_nat (List.length t) < 10 ^ N.of_nat k) by lia.
  apply N.pow_lt_mono_r_iff in H4; lia.
Qed.
Lemma group_name_named id k : group_named id k (group_name id k).
Proof. exists (dec id), (dec k). repeat split; apply dec_decimal. Qed.
