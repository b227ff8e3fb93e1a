(** Nesting of the groups of a regex. *)
From Coq Require Import PeanoNat.
From Verif Require Export ProofSame SpecNesting.

(** A piece of regex that closes what it opens and nests at most [k] groups. *)
Definition closed (k : nat) (u : str) : Prop := forall d t, (deepest d (u ++ t) <= Nat.max (d + k) (deepest d t))%nat.
Lemma deepest_ge d t : (d <= deepest d t)%nat.
Proof.
  enough (H : forall n t d, (List.length t <= n)%nat -> (d <= deepest d t)%nat) by (now apply (H (List.length t))).
  clear. induction n as [|n IH]; intros t d Hn; [destruct t; [cbn; lia|cbn in Hn; lia]|].
  destruct t as [|c t]; [cbn; lia|]. cbn [deepest]. cbn [List.length] in Hn.
  destruct (c =? c_ "\"); [destruct t as [|x t]; [lia|]; apply IH; cbn [List.length] in Hn; lia|].
  destruct (c =? c_ "("); [pose proof (IH t (S d)); lia|]. destruct (c =? c_ ")"); [lia|]. apply IH. lia.
Qed.
Lemma closed_nil : closed 0 [].
Proof. intros d t. cbn [app]. lia. Qed.
Lemma closed_app k u v : closed k u -> closed k v -> closed k (u ++ v).
Proof. intros Hu Hv d t. rewrite <- app_assoc. pose proof (Hu d (v ++ t)). pose proof (Hv d t). lia. Qed.
Lemma closed_mono k k' u : (k <= k')%nat -> closed k u -> closed k' u.
Proof. intros Hk Hu d t. pose proof (Hu d t). lia. Qed.
Lemma closed_char c : ~ In c (s_ "\()") -> closed 0 [c].
Proof.
  intros H d t. cbn [app deepest].
  destruct (N.eqb_spec c (c_ "\")) as [->|_]; [destruct H; cbn; auto|].
  destruct (N.eqb_spec c (c_ "(")) as [->|_]; [destruct H; cbn; auto|].
  destruct (N.eqb_spec c (c_ ")")) as [->|_]; [destruct H; cbn; auto|]. lia.
Qed.
Lemma closed_chars u : Forall (fun c => ~ In c (s_ "\()")) u -> closed 0 u.
Proof.
  induction 1 as [|c u Hc _ IH]; [apply closed_nil|]. change (c :: u) with ([c] ++ u). apply closed_app; [now apply closed_char|assumption].
Qed.
Lemma closed_escape c : closed 0 [c_ "\"; c].
Proof. intros d t. cbn [app deepest]. rewrite N.eqb_refl. lia. Qed.
Lemma closed_quote c : closed 0 (quote c).
Proof.
  unfold quote. destruct (in_dec N.eq_dec c regex_special) as [_|H]; [apply closed_escape|]. apply closed_char.
  intros Hi. apply H. cbn in Hi |- *. tauto.
Qed.
Lemma closed_quotes t : closed 0 (flat_map quote t).
Proof. induction t as [|c t IH]; [apply closed_nil|]. cbn [flat_map]. apply closed_app; [apply closed_quote|assumption]. Qed.
Lemma closed_group k u : closed k u -> closed (S k) (s_ "(?:" ++ u ++ s_ ")").
Proof.
  intros Hu d t. rewrite <- !app_assoc.
  change (deepest d (s_ "(?:" ++ u ++ s_ ")" ++ t)) with (deepest (S d) (u ++ s_ ")" ++ t)).
  pose proof (Hu (S d) (s_ ")" ++ t)) as H.
  change (deepest (S d) (s_ ")" ++ t)) with (Nat.max (S d) (deepest (S d - 1) t)) in H.
  replace (S d - 1)%nat with d in H by lia. lia.
Qed.
Lemma closed_piece x : closed 1 (piece_regex x).
Proof.
  destruct x as [c|t]; cbn [piece_regex].
  - apply (closed_mono 0); [lia|apply closed_quote].
  - change (s_ ")?") with (s_ ")" ++ s_ "?"). rewrite !app_assoc. rewrite <- (app_assoc (s_ "(?:")).
    apply closed_app; [apply closed_group, closed_quotes|].
    apply (closed_mono 0); [lia|]. apply closed_char. cbn. intuition discriminate.
Qed.
Lemma closed_pieces l : closed 1 (flat_map piece_regex l).
Proof.
  induction l as [|x l IH]; [apply (closed_mono 0); [lia|apply closed_nil]|]. cbn [flat_map]. apply closed_app; [apply closed_piece|assumption].
Qed.
Lemma closed_join k l : Forall (closed k) l -> closed k (join (s_ "|") l).
Proof.
  induction 1 as [|u l Hu Hl IH]; [apply (closed_mono 0); [lia|apply closed_nil]|].
  cbn [join]. destruct Hl as [|v l Hv Hl]; [assumption|].
  apply closed_app; [assumption|]. apply closed_app; [|assumption].
  apply (closed_mono 0); [lia|]. apply closed_char. cbn. intuition discriminate.
Qed.
Lemma digits_closed n : Forall ascii_digit n -> closed 0 n.
Proof.
  intros H. apply closed_chars. revert H. apply Forall_impl. intros c Hc Hi. unfold ascii_digit in Hc.
  cbn in Hi. destruct Hi as [<-|[<-|[<-|[]]]]; vm_compute in Hc; destruct Hc; congruence.
Qed.
Local Arguments Nat.max : simpl never.
Ltac nested := intros d t; cbn; repeat match goal with |- context [(?x - 0)%nat] => rewrite (Nat.sub_0_r x) end; pose proof (deepest_ge d t); lia.
Lemma closed_int : closed 2 (s_ "((?:-?\d+)|(?:\d+))").
Proof. nested. Qed.
Lemma closed_float : closed 3 (s_ "([+-]?(?:inf|NaN|(?:\d+|\d+\.\d*|\d*\.\d+)(?:[eE][+-]?\d+)?))").
Proof. nested. Qed.
Lemma closed_word : closed 1 (s_ "([^\s]+)").
Proof. nested. Qed.
Lemma closed_anonymous : closed 1 (s_ "(.*)").
Proof. nested. Qed.
Lemma closed_string n : Forall ascii_digit n ->
  closed 3 (s_ "(?:""(?P<__" ++ n ++ s_ "_0>[^""\\]*(?:\\.[^""\\]*)*)""|'(?P<__" ++ n ++ s_ "_1>[^'\\]*(?:\\.[^'\\]*)*)')").
Proof.
  intros Hn d t. apply digits_closed in Hn. rewrite <- !app_assoc.
  change (deepest (S (S d)) (n ++ s_ "_0>[^""\\]*(?:\\.[^""\\]*)*)""|'(?P<__" ++ n ++ s_ "_1>[^'\\]*(?:\\.[^'\\]*)*)')" ++ t)
    <= Nat.max (d + 3) (deepest d t))%nat.
  pose proof (Hn (S (S d)) (s_ "_0>[^""\\]*(?:\\.[^""\\]*)*)""|'(?P<__" ++ n ++ s_ "_1>[^'\\]*(?:\\.[^'\\]*)*)')" ++ t)) as H1.
  assert (H2 : deepest (S (S d)) (s_ "_0>[^""\\]*(?:\\.[^""\\]*)*)""|'(?P<__" ++ n ++ s_ "_1>[^'\\]*(?:\\.[^'\\]*)*)')" ++ t)
    = Nat.max (S (S (S d))) (Nat.max (S (S d)) (deepest (S (S d)) (n ++ s_ "_1>[^'\\]*(?:\\.[^'\\]*)*)')" ++ t)))) by reflexivity.
  pose proof (Hn (S (S d)) (s_ "_1>[^'\\]*(?:\\.[^'\\]*)*)')" ++ t)) as H3.
  assert (H4 : deepest (S (S d)) (s_ "_1>[^'\\]*(?:\\.[^'\\]*)*)')" ++ t)
    = Nat.max (S (S (S d))) (Nat.max (S (S d)) (Nat.max (S d) (deepest (d - 0) t)))) by reflexivity.
  rewrite Nat.sub_0_r in H4. lia.
Qed.
Lemma closed_written k l t : written k l t -> closed 3 t.
Proof.
  induction 1 as [k|k x l t _ IH|k a l t _ IH|k l t _ IH|k l t _ IH|k l t _ IH|k n l t Hn _ IH|k l t _ IH].
  - apply (closed_mono 0); [lia|apply closed_nil].
  - apply closed_app; [|assumption]. apply (closed_mono 1); [lia|apply closed_piece].
  - rewrite (app_assoc _ (s_ ")")), (app_assoc (s_ "(?:")). apply closed_app; [|assumption].
    apply (closed_mono 2); [lia|]. apply closed_group, closed_join. apply Forall_map, Forall_forall. intros b _. apply closed_pieces.
  - apply closed_app; [|assumption]. apply (closed_mono 2); [lia|apply closed_int].
  - apply closed_app; [apply closed_float|assumption].
  - apply closed_app; [|assumption]. apply (closed_mono 1); [lia|apply closed_word].
  - destruct Hn as (_ & Hn & _). pose proof (closed_app _ _ _ (closed_string n Hn) IH) as H. rewrite <- !app_assoc in H. exact H.
  - apply closed_app; [|assumption]. apply (closed_mono 1); [lia|apply closed_anonymous].
Qed.
Lemma regex_nesting s t r : addressable s -> expression_regex s = XOk t r -> (deepest 0 t <= 3)%nat.
Proof.
  intros Hs R. destruct (expression_parse s) as [e| | |] eqn:P; try (unfold expression_regex, regex_by in R; now rewrite P in R).
  destruct (regex_written s e t r Hs P R) as (u & W & ->). apply closed_written in W.
  change (deepest 0 (s_ "^" ++ u ++ s_ "$")) with (deepest 0 (u ++ s_ "$")).
  pose proof (W 0%nat (s_ "$")) as H. change (deepest 0 (s_ "$")) with 0%nat in H. lia.
Qed.
