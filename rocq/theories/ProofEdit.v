(** Editing one node of an expression. *)
From Verif Require Export SpecEdit ProofConcat.

Lemma one_after_nil a ea : one_after_the_other a ea [] = ea.
Proof. unfold one_after_the_other. cbn. apply app_nil_r. Qed.
Lemma moved_head o l k (x : single_expression span) r : exists y, add_ids k (map_expression (shift_span o l) (x :: r)) =
  y :: add_ids k (map_expression (shift_span o l) r) /\ same_kind x y.
Proof. eexists. split; [reflexivity|]. now destruct x. Qed.
Definition free {I} (x y : single_expression I) : Prop := ~ touches x y /\ ~ same_text x y.
Lemma free_kind {I} (x x' y y' : single_expression I) : same_kind x x' -> same_kind y y' -> free x y -> free x' y'.
Proof. unfold free. destruct x, x'; try easy; destruct y, y'; try easy. Qed.
Lemma kind_sym {I J} (x : single_expression I) (y : single_expression J) : same_kind x y -> same_kind y x.
Proof. now destruct x, y. Qed.
Lemma kind_refl {I} (x : single_expression I) : same_kind x x.
Proof. now destruct x. Qed.

Lemma three_shape a m ea x eb : exists x1, same_kind x x1 /\
  (eb = [] -> three a m ea [x] eb = ea ++ [x1]) /\
  forall y r, eb = y :: r -> exists y1 r1, same_kind y y1 /\ three a m ea [x] eb = ea ++ x1 :: y1 :: r1.
Proof.
  unfold three. change (one_after_the_other m [x] eb) with (x :: add_ids (N.of_nat (List.length (ids [x]))) (map_expression (shift_span (blen m) (newlines m)) eb)).
  set (k := N.of_nat _). set (o := blen m). set (n := newlines m).
  unfold one_after_the_other. set (k' := N.of_nat _). set (o' := blen a). set (n' := newlines a).
  destruct (moved_head o' n' k' x (add_ids k (map_expression (shift_span o n) eb))) as (x1 & E & K).
  exists x1. split; [assumption|]. rewrite E. split; [now intros ->|]. intros y r ->.
  destruct (moved_head o n k y r) as (y0 & E0 & K0). rewrite E0.
  destruct (moved_head o' n' k' y0 (add_ids k (map_expression (shift_span o n) r))) as (y1 & E1 & K1). rewrite E1.
  exists y1. eexists. split; [|reflexivity]. now destruct y, y0, y1.
Qed.
Lemma adjacent_free s e : addressable s -> expression_parse s = RetOk e -> forall l u v r, e = l ++ u :: v :: r -> free u v.
Proof.
  intros Hs H l u v r ->. destruct (parsed_wf _ _ Hs H) as [(_ & L & _) _]. apply (follow_iff frag).
  apply (L (map_expression frag l) _ _ (map_expression frag r)). unfold map_expression. now rewrite map_app.
Qed.
Lemma edit a m m' b ea x x' eb : addressable (a ++ m ++ b) -> addressable (a ++ m' ++ b) ->
  expression_parse a = RetOk ea -> expression_parse m' = RetOk [x'] -> expression_parse b = RetOk eb -> same_kind x x' ->
  expression_parse (a ++ m ++ b) = RetOk (three a m ea [x] eb) ->
  expression_parse (a ++ m' ++ b) = RetOk (three a m' ea [x'] eb).
Proof.
  intros Hs Hs' Ha Hm' Hb K H. destruct (addressable_app _ _ Hs') as [_ Hmb'].
  pose proof (adjacent_free _ _ Hs H) as F. destruct (three_shape a m ea x eb) as (x1 & K1 & T1 & T2).
  assert (E : expression_parse (m' ++ b) = RetOk (one_after_the_other m' [x'] eb)).
  { apply concat_nodes; [assumption..|]. intros l u y r El ->. destruct l as [|? [|]]; try discriminate. injection El as <-.
    destruct (T2 y r eq_refl) as (y1 & r1 & Ky & T). specialize (F ea x1 y1 r1 T).
    apply (free_kind x1 x' y1 y); [|now apply kind_sym|assumption]. destruct x, x1, x'; easy. }
  unfold three. apply concat_nodes; [assumption..|]. intros l u y r -> Er. injection Er as <- _.
  assert (exists r1, three a m (l ++ [u]) [x] eb = l ++ u :: x1 :: r1) as (r1 & T).
  { destruct eb as [|y eb].
    - exists []. rewrite (T1 eq_refl), <- app_assoc. reflexivity.
    - destruct (T2 _ _ eq_refl) as (y1 & r1 & _ & T). exists (y1 :: r1). rewrite T, <- app_assoc. reflexivity. }
  specialize (F l u x1 r1 T). apply (free_kind u u x1 x'); [apply kind_refl| |assumption]. destruct x, x1, x'; easy.
Qed.
(** Every node has its own text. *)
Lemma cut_node s l x r : addressable s -> expression_parse s = RetOk (l ++ x :: r) ->
  exists a m b x0 eb, s = a ++ m ++ b /\ expression_parse a = RetOk l /\ expression_parse m = RetOk [x0] /\
    expression_parse b = RetOk eb /\ same_kind x x0 /\ l ++ x :: r = three a m l [x0] eb.
Proof.
  intros Hs H. destruct (cut_nodes s l (x :: r) Hs H) as (a & mb & y & -> & Ha & Hmb & E).
  destruct (addressable_app _ _ Hs) as [_ Hm]. unfold one_after_the_other in E. apply app_inv_head in E.
  destruct y as [|x0 y]; [discriminate|]. pose proof E as E'. destruct (moved_head (blen a) (newlines a) (N.of_nat (List.length (ids l))) x0 y) as (x1 & E1 & K).
  rewrite E1 in E'. injection E' as -> _.
  destruct (cut_nodes mb [x0] y Hm Hmb) as (m & b & z & -> & Hm0 & Hb & E2).
  exists a, m, b, x0, z. repeat (split; [easy|]). split; [now apply kind_sym|].
  unfold three, one_after_the_other at 1. f_equal. rewrite E. now rewrite <- E2.
Qed.
Lemma edit_node s l x r m' x' : addressable s -> expression_parse s = RetOk (l ++ x :: r) ->
  expression_parse m' = RetOk [x'] -> same_kind x x' ->
  exists a m b x0 eb, s = a ++ m ++ b /\ expression_parse a = RetOk l /\ expression_parse m = RetOk [x0] /\
    expression_parse b = RetOk eb /\ l ++ x :: r = three a m l [x0] eb /\
    (addressable (a ++ m' ++ b) -> expression_parse (a ++ m' ++ b) = RetOk (three a m' l [x'] eb)).
Proof.
  intros Hs H Hm' K. destruct (cut_node s l x r Hs H) as (a & m & b & x0 & eb & -> & Ha & Hm & Hb & K0 & E).
  exists a, m, b, x0, eb. repeat (split; [easy|]). intros Hs'. apply (edit a m m' b l x0 x' eb); try assumption.
  - now destruct x, x0, x'.
  - now rewrite <- E.
Qed.
(** Any nodes make an expression. *)
Lemma nodes_accepted e : Forall wf_single e -> addressable (source e) -> accepted (source e).
Proof.
  induction 1 as [|x e Hx He IH]; intros Hs; [exists []; vm_compute; reflexivity|].
  change (source (x :: e)) with (src_single x ++ source e) in *. destruct (addressable_app _ _ Hs) as [H1 H2].
  apply concat_accepted; [assumption| |auto]. apply accepted_iff_grammar; [assumption|].
  replace (src_single x) with (source [x]) by (unfold source; cbn; apply app_nil_r). constructor; [now apply single_lang|constructor].
Qed.
Lemma rearranged s e e' : addressable s -> expression_parse s = RetOk e ->
  (forall x, In x e' -> In x (map_expression frag e)) -> addressable (source e') -> accepted (source e').
Proof.
  intros Hs H I Hs'. apply nodes_accepted; [|assumption]. destruct (parsed_wf _ _ Hs H) as [[W _] _].
  rewrite Forall_forall in W |- *. auto.
Qed.
