(** [EscapeForRegex] of what it yields. *)
From Coq Require Import Arith.
From Verif Require Import SpecIter ProofIter.

Lemma unescape_quote c t : unescape (quote c ++ t) = c :: unescape t.
Proof.
  unfold quote. destruct (in_dec N.eq_dec c regex_special) as [H|H]; cbn [app unescape].
  - destruct (N.eq_dec (c_ "\") (c_ "\")); [easy|congruence].
  - destruct (N.eq_dec c (c_ "\")) as [->|]; [|easy]. exfalso. apply H. vm_compute. tauto.
Qed.
Lemma unescape_quoted t : unescape (flat_map quote t) = t.
Proof. induction t as [|c t IH]; [easy|]. cbn [flat_map]. now rewrite unescape_quote, IH. Qed.
Lemma escape_twice St (next : iter St char) s l : iterates next s l ->
  iterates (escape_next (escape_next next)) (escape_new (escape_new s)) (flat_map quote (unescape l)).
Proof.
  intro H. apply escape_iterates in H. apply escape_iterates in H. now rewrite unescape_quoted in H.
Qed.
Lemma escape_yields St (next : iter St char) s l : iterates next s l -> forall t,
  iterates (escape_next next) (escape_new s) (flat_map quote t) <-> unescape l = t.
Proof.
  intros H t. split; [|intros <-; now apply escape_iterates].
  intro G. apply escape_iterates in H.
  assert (E : forall (l l' : str), (forall n, firstn n (map Some l ++ repeat None n) = firstn n (map Some l' ++ repeat None n)) -> l = l').
  { clear. induction l as [|x l IH]; intros [|y l'] E; [easy| | |].
    - now specialize (E 1%nat).
    - now specialize (E 1%nat).
    - f_equal; [now injection (E 1%nat)|]. apply IH. intro n. pose proof (E (S n)) as En. cbn in En. injection En as _ En.
      assert (Q : forall k : str, firstn n (map Some k ++ None :: repeat None n) = firstn n (map Some k ++ repeat None n)).
      { intro k. rewrite !firstn_app, !map_length. f_equal.
        change (@None char :: repeat None n) with (repeat (@None char) (S n)).
        assert (L : (n - List.length k <= n)%nat) by lia. revert L. generalize (n - List.length k)%nat. clear. intros m L.
        replace (S n) with (m + (S n - m))%nat by lia. replace n with (m + (n - m))%nat at 2 by lia.
        rewrite !repeat_app, !firstn_app, !repeat_length, Nat.sub_diag, !firstn_O, !app_nil_r. easy. }
      now rewrite !Q in En. }
  assert (F : flat_map quote (unescape l) = flat_map quote t).
  { apply E. intro n. now rewrite <- (H n), <- (G n). }
  rewrite <- (unescape_quoted (unescape l)), F. apply unescape_quoted.
Qed.
