(** The iterators on whatever they are given. *)
From Coq Require Import PeanoNat.
From Verif Require Import SpecEndless ProofIter.

Lemma outputs_snoc {St A} (next : iter St A) : forall n s, outputs next (S n) s = outputs next n s ++ [fst (next (after next n s))].
Proof.
  induction n as [|n IH]; intros s; [cbn; now destruct (next s)|].
  change (outputs next (S (S n)) s) with (let '(x, s') := next s in x :: outputs next (S n) s').
  change (outputs next (S n) s) with (let '(x, s') := next s in x :: outputs next n s').
  cbn [after]. destruct (next s) as [x s']. cbn [snd]. now rewrite IH.
Qed.
Lemma after_snoc {St A} (next : iter St A) : forall n s, after next (S n) s = snd (next (after next n s)).
Proof. induction n as [|n IH]; intros s; [reflexivity|]. exact (IH (snd (next s))). Qed.
Lemma yields_snoc {St A} (next : iter St A) s l x : yields next s l ->
  (yields next s (l ++ [x]) <-> fst (next (after next (List.length l) s)) = Some x).
Proof.
  unfold yields. intros H. rewrite app_length, Nat.add_1_r, outputs_snoc, H, map_app. cbn [map]. split.
  - intros E. apply app_inj_tail in E. tauto.
  - now intros ->.
Qed.
Lemma yields_front {St A} (next : iter St A) s l x : yields next s (l ++ [x]) -> yields next s l.
Proof.
  unfold yields. rewrite app_length, Nat.add_1_r, outputs_snoc, map_app. cbn [map]. intros E. apply app_inj_tail in E. tauto.
Qed.

(** ** [SkipLast] *)
Lemma skip_last_after {St A} (next : iter St A) s : forall n, (0 < n)%nat ->
  after (skip_last_next next) n (skip_last_new s) =
  mkPeekable (Some (fst (next (after next n s)))) (after next (S n) s).
Proof.
  induction n as [|n IH]; [lia|]. intros _. rewrite after_snoc, (after_snoc next (S n)).
  destruct n as [|n].
  - cbn. unfold skip_last_next, peekable_next, peekable_peek, skip_last_new, peekable_new. cbn.
    destruct (next s) as [x s1] eqn:E1. cbn. now destruct (next s1).
  - rewrite IH by lia. unfold skip_last_next, peekable_next, peekable_peek. cbn [pk_peeked pk_iter].
    now destruct (next (after next (S (S n)) s)).
Qed.
Lemma skip_last_call {St A} (next : iter St A) s n :
  fst (skip_last_next next (after (skip_last_next next) n (skip_last_new s))) =
  match fst (next (after next (S n) s)) with Some _ => fst (next (after next n s)) | None => None end.
Proof.
  destruct n as [|n].
  - cbn. unfold skip_last_next, peekable_next, peekable_peek, skip_last_new, peekable_new. cbn.
    destruct (next s) as [x s1] eqn:E1. cbn. now destruct (next s1).
  - rewrite skip_last_after by lia. unfold skip_last_next, peekable_next, peekable_peek. cbn [pk_peeked pk_iter].
    now destruct (next (after next (S (S n)) s)).
Qed.
Lemma skip_last_yields {St A} (next : iter St A) s : forall l x, yields next s (l ++ [x]) -> yields (skip_last_next next) (skip_last_new s) l.
Proof.
  induction l as [|y l IH] using rev_ind; intros x H; [reflexivity|].
  pose proof (yields_front _ _ _ _ H) as H1. apply yields_snoc in H; [|exact H1].
  rewrite app_length, Nat.add_1_r in H.
  apply yields_snoc; [now apply (IH y)|]. rewrite skip_last_call. rewrite H.
  apply yields_snoc in H1; [exact H1|]. now apply yields_front in H1.
Qed.
Lemma seq_snoc {A} (f : nat -> A) n : map f (seq 0 (S n)) = map f (seq 0 n) ++ [f n].
Proof. now rewrite seq_S, map_app. Qed.
Lemma skip_last_endless {St A} (next : iter St A) s f : endless next s f -> endless (skip_last_next next) (skip_last_new s) f.
Proof. intros H n. apply (skip_last_yields next s _ (f n)). rewrite <- seq_snoc. apply H. Qed.

(** ** [EscapeForRegex] *)
Definition pending {St} (e : escaper St) : str := match es_was_escaped e with Some c => [c] | None => [] end.
Lemma whole_nil : whole [].
Proof. intros r. reflexivity. Qed.
Lemma whole_plain l c : whole l -> c <> c_ "\" -> whole (l ++ [c]).
Proof.
  intros H Hc r. rewrite <- app_assoc, !H, <- app_assoc. f_equal. cbn [app unescape]. now destruct (N.eq_dec c (c_ "\")).
Qed.
Lemma whole_escape l c : whole l -> whole (l ++ [c_ "\"; c]).
Proof. intros H r. rewrite <- app_assoc, !H, <- app_assoc. reflexivity. Qed.
Lemma unescape_plain l c : whole l -> c <> c_ "\" -> unescape (l ++ [c]) = unescape l ++ [c].
Proof. intros H Hc. rewrite H. f_equal. cbn [unescape]. now destruct (N.eq_dec c (c_ "\")). Qed.
Lemma flat_quote l c : flat_map quote (l ++ [c]) = flat_map quote l ++ quote c.
Proof. rewrite flat_map_app. cbn. now rewrite app_nil_r. Qed.
Section Escape.
  Context {St : Type} (next : iter St char) (s0 : St).
  (** What was yielded and what will be next come from whole escapes read. *)
  Definition inv (out : str) (e : escaper St) : Prop := exists l, yields next s0 l /\ whole l /\
    es_iter e = mkPeekable None (after next (List.length l) s0) /\ out ++ pending e = flat_map quote (unescape l).
  Lemma more l x : yields next s0 l -> fst (next (after next (List.length l) s0)) = Some x ->
    yields next s0 (l ++ [x]) /\ snd (next (after next (List.length l) s0)) = after next (List.length (l ++ [x])) s0.
  Proof. intros H E. split; [now apply yields_snoc|]. now rewrite app_length, Nat.add_1_r, after_snoc. Qed.
  Lemma inv_step out e x e' : inv out e -> escape_next next e = (Some x, e') -> inv (out ++ [x]) e'.
  Proof.
    intros (l & Y & W & Ei & Eo). destruct e as [it [w|]]; cbn [es_iter pending es_was_escaped] in *; unfold escape_next; cbn [es_was_escaped es_iter].
    - intros [= <- <-]. exists l. cbn. rewrite app_nil_r. auto.
    - subst it. destruct (escape_loop next 2 (mkPeekable None (after next (List.length l) s0))) as [r|] eqn:EL; [|discriminate]. intros ->.
      cbn [escape_loop] in EL. unfold peekable_next at 1 in EL. cbn [pk_peeked pk_iter] in EL.
      destruct (next (after next (List.length l) s0)) as [c s1] eqn:E1.
      destruct c as [c|]; [|discriminate EL]. destruct (more l c Y ltac:(now rewrite E1)) as [Y1 A1]. rewrite E1 in A1. cbn [snd] in A1.
      rewrite app_nil_r in Eo. destruct (N.eqb_spec c (c_ "\")) as [->|Hc].
      + unfold peekable_peek in EL. cbn [pk_peeked pk_iter] in EL. subst s1.
        destruct (next (after next (List.length (l ++ [c_ "\"])) s0)) as [d s2] eqn:E2.
        destruct d as [d|]; [|discriminate EL]. destruct (more _ d Y1 ltac:(now rewrite E2)) as [Y2 A2]. rewrite E2 in A2. cbn [snd] in A2.
        rewrite <- app_assoc in Y2, A2. cbn [app] in Y2, A2. pose proof (whole_escape l d W) as W2.
        assert (U : flat_map quote (unescape (l ++ [c_ "\"; d])) = out ++ quote d).
        { rewrite W, flat_map_app, <- Eo. cbn. now rewrite app_nil_r. }
        rewrite quote_eq in U. unfold peekable_next in EL. cbn [pk_peeked pk_iter] in EL.
        destruct (should_be_escaped d) eqn:Ed.
        * injection EL as <- <-. exists (l ++ [c_ "\"; d]). cbn [pending es_iter es_was_escaped]. rewrite U, A2, <- app_assoc. auto.
        * destruct (N.eqb_spec d (c_ "\")) as [->|Hd]; [discriminate Ed|]. injection EL as <- <-.
          exists (l ++ [c_ "\"; d]). cbn [pending es_iter es_was_escaped]. rewrite U, A2, app_nil_r. auto.
      + pose proof (whole_plain l c W Hc) as W1.
        assert (U : flat_map quote (unescape (l ++ [c])) = out ++ quote c).
        { rewrite unescape_plain by assumption. now rewrite flat_quote, <- Eo. }
        rewrite quote_eq in U. destruct (should_be_escaped c); injection EL as <- <-; exists (l ++ [c]); cbn [pending es_iter es_was_escaped]; rewrite U, A1.
        * rewrite <- app_assoc. auto.
        * rewrite app_nil_r. auto.
  Qed.
  Lemma inv_reached : forall out, yields (escape_next next) (escape_new s0) out -> inv out (after (escape_next next) (List.length out) (escape_new s0)).
  Proof.
    induction out as [|x out IH] using rev_ind; intros Y.
    - exists []. repeat split.
    - pose proof (yields_front _ _ _ _ Y) as Y1. specialize (IH Y1). apply yields_snoc in Y; [|exact Y1].
      rewrite app_length, Nat.add_1_r, after_snoc. eapply inv_step; [exact IH|].
      destruct (escape_next next (after (escape_next next) (List.length out) (escape_new s0))). cbn in *. now subst.
  Qed.
  (** It ends only where the inner iterator does. *)
  Lemma ends_only e : fst (escape_next next e) = None -> pk_peeked (es_iter e) = None ->
    fst (next (pk_iter (es_iter e))) = None \/ fst (next (snd (next (pk_iter (es_iter e))))) = None.
  Proof.
    destruct e as [[pk it] [w|]]; cbn [es_iter pk_peeked pk_iter]; [discriminate|]. intros H ->.
    unfold escape_next in H. cbn [es_was_escaped es_iter] in H. pose proof (escape_loop_enough next (mkPeekable None it)) as L.
    destruct (escape_loop next 2 (mkPeekable None it)) as [r|] eqn:EL; [|easy].
    cbn [escape_loop] in EL. unfold peekable_next at 1 in EL. cbn [pk_peeked pk_iter] in EL.
    destruct (next it) as [[c|] s1] eqn:E1; [|now left]. right. cbn [snd].
    destruct (c =? c_ "\"); [|destruct (should_be_escaped c); injection EL as <-; discriminate H].
    unfold peekable_peek in EL. cbn [pk_peeked pk_iter] in EL. destruct (next s1) as [[d|] s2] eqn:E2; [|reflexivity].
    exfalso. unfold peekable_next in EL. cbn [pk_peeked pk_iter] in EL. destruct (should_be_escaped d) eqn:Ed; [injection EL as <-; discriminate H|].
    destruct (N.eqb_spec d (c_ "\")) as [->|Hd]; [discriminate Ed|]. injection EL as <-. discriminate H.
  Qed.
  Lemma endless_call f n : endless next s0 f -> fst (next (after next n s0)) = Some (f n).
  Proof.
    intros H. pose proof (H (S n)) as Hn. rewrite seq_snoc in Hn. apply yields_snoc in Hn; [|apply H].
    now rewrite map_length, seq_length in Hn.
  Qed.
  Lemma escape_endless f : endless next s0 f -> forall n, exists out, List.length out = n /\ yields (escape_next next) (escape_new s0) out.
  Proof.
    intros H. induction n as [|n (out & L & Y)]; [now exists []|].
    destruct (fst (escape_next next (after (escape_next next) (List.length out) (escape_new s0)))) as [x|] eqn:E.
    - exists (out ++ [x]). split; [rewrite app_length; cbn; lia|]. now apply yields_snoc.
    - exfalso. destruct (inv_reached out Y) as (l & Yl & _ & Ei & _).
      apply ends_only in E; [|now rewrite Ei]. rewrite Ei in E. cbn [pk_iter] in E. rewrite <- after_snoc, !(endless_call f) in E by assumption. now destruct E.
  Qed.
End Escape.
Lemma escape_reads {St} (next : iter St char) s out : yields (escape_next next) (escape_new s) out ->
  exists l, yields next s l /\ whole l /\
    pk_iter (es_iter (after (escape_next next) (List.length out) (escape_new s))) = after next (List.length l) s /\
    (flat_map quote (unescape l) = out \/ exists c, flat_map quote (unescape l) = out ++ [c]).
Proof.
  intros Y. destruct (inv_reached next s out Y) as (l & Yl & W & Ei & Eo). exists l. rewrite Ei. repeat split; try assumption.
  rewrite <- Eo. unfold pending. destruct (es_was_escaped _) as [c|]; [right; now exists c|left; apply app_nil_r].
Qed.
