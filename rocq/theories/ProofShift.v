(** Where a regex stands changes nothing but the indices of its groups. *)
From Coq Require Import PeanoNat.
From Verif Require Export ProofRelabel.

Fixpoint shift (k : N) (h : hir) : hir :=
  match h with
  | HEmpty | HLit _ | HClass _ | HLook _ => h
  | HRep a b g h => HRep a b g (shift k h)
  | HCap i n h => HCap (i + k) n (shift k h)
  | HCat l => HCat (map (shift k) l)
  | HAlt l => HAlt (map (shift k) l)
  end.
Lemma shift_unhir k h : unhir (shift k h) = unhir h.
Proof.
  induction h as [|t|j|l|a b g h IH|i n h IH|l IH|l IH] using hir_ind'; cbn [shift unhir]; try reflexivity; try congruence.
  - f_equal. rewrite map_map. now apply map_ext_Forall.
  - f_equal. rewrite map_map. now apply map_ext_Forall.
Qed.
Lemma shift_eqb k a : forall b, hir_eqb (shift k a) (shift k b) = hir_eqb a b.
Proof.
  induction a as [|t|j|l|x y g h IH|i n h IH|l IH|l IH] using hir_ind'; intros [|t'|j'|l'|x' y' g' h'|i' n' h'|l'|l']; cbn [shift hir_eqb]; try reflexivity.
  - now rewrite IH.
  - rewrite IH. f_equal. f_equal. destruct (N.eqb_spec (i + k) (i' + k)), (N.eqb_spec i i'); try reflexivity; lia.
  - revert l'. induction IH as [|x l Hx Hl IH]; intros [|y l']; cbn [map]; try reflexivity. now rewrite Hx, IH.
  - revert l'. induction IH as [|x l Hx Hl IH]; intros [|y l']; cbn [map]; try reflexivity. now rewrite Hx, IH.
Qed.
Lemma shift_empty k h : only_empty (shift k h) = only_empty h.
Proof.
  induction h as [|t|j|l|a b g h IH|i n h IH|l IH|l IH] using hir_ind'; cbn [shift only_empty]; try reflexivity; try assumption.
  - now destruct b.
  - induction IH as [|x l Hx Hl IH]; [reflexivity|]. cbn [map forallb]. now rewrite Hx, IH.
  - induction IH as [|x l Hx Hl IH]; [reflexivity|]. cbn [map forallb]. now rewrite Hx, IH.
Qed.
Lemma shift_size k h : hir_size (shift k h) = hir_size h.
Proof.
  induction h as [|t|j|l|a b g h IH|i n h IH|l IH|l IH] using hir_ind'; cbn [shift hir_size]; try reflexivity; try congruence.
  - f_equal. induction IH as [|x l Hx Hl IH]; [reflexivity|]. cbn [map fold_right]. now rewrite Hx, IH.
  - f_equal. induction IH as [|x l Hx Hl IH]; [reflexivity|]. cbn [map fold_right]. now rewrite Hx, IH.
Qed.
Lemma shift_class k j : shift k (h_class j) = h_class j.
Proof. unfold h_class. destruct j as [|[a b] [|]]; try reflexivity. destruct (a =? b); reflexivity. Qed.
Lemma shift_repetition k a b g h : shift k (h_repetition a b g h) = h_repetition a b g (shift k h).
Proof.
  unfold h_repetition. rewrite shift_empty. set (q := if only_empty h then _ else _). destruct q as [x y]. repeat (destruct (_ && _); [reflexivity|]). reflexivity.
Qed.
Lemma shift_flatten_cat k l : flatten_cat (map (shift k) l) = map (shift k) (flatten_cat l).
Proof. induction l as [|h l IH]; [reflexivity|]. unfold flatten_cat in *. cbn [map flat_map]. rewrite map_app, IH. f_equal. now destruct h. Qed.
Lemma shift_flatten_alt k l : flatten_alt (map (shift k) l) = map (shift k) (flatten_alt l).
Proof. induction l as [|h l IH]; [reflexivity|]. unfold flatten_alt in *. cbn [map flat_map]. rewrite map_app, IH. f_equal. now destruct h. Qed.
Lemma shift_join k l : forall t, join_literals t (map (shift k) l) = map (shift k) (join_literals t l).
Proof.
  assert (Hf : forall t, map (shift k) (flush t) = flush t) by now intros [].
  induction l as [|h l IH]; intros t; cbn [map join_literals]; [now rewrite Hf|].
  destruct h; cbn [shift join_literals]; try (rewrite map_app, Hf; cbn [map]; now rewrite IH). apply IH.
Qed.
Lemma shift_concat k l : h_concat (map (shift k) l) = shift k (h_concat l).
Proof. unfold h_concat. rewrite shift_flatten_cat, shift_join. now destruct (join_literals [] (flatten_cat l)) as [|h [|h' m]]. Qed.
Lemma shift_common k a : forall b, common (map (shift k) a) (map (shift k) b) = map (shift k) (common a b).
Proof. induction a as [|x a IH]; intros [|y b]; cbn [map common]; try reflexivity. rewrite shift_eqb. destruct (hir_eqb x y); [|reflexivity]. cbn [map]. now rewrite IH. Qed.
Lemma shift_commons k cs : forall c, fold_left common (map (map (shift k)) cs) (map (shift k) c) = map (shift k) (fold_left common cs c).
Proof. induction cs as [|d cs IH]; intros c; cbn [map fold_left]; [reflexivity|]. now rewrite shift_common, IH. Qed.
Lemma shift_some {B} (f : hir -> option B) k l : (forall h, f (shift k h) = f h) -> all_some f (map (shift k) l) = all_some f l.
Proof. intros H. rewrite all_some_map. now apply all_some_ext. Qed.
Lemma shift_concats k l : all_some as_concat (map (shift k) l) = option_map (map (map (shift k))) (all_some as_concat l).
Proof.
  induction l as [|h l IH]; [reflexivity|]. cbn [map all_some]. rewrite IH. destruct h; try reflexivity. cbn [shift as_concat]. now destruct (all_some as_concat l).
Qed.
Lemma shift_alternation k fuel : forall l, h_alternation_ fuel (map (shift k) l) = shift k (h_alternation_ fuel l).
Proof.
  induction fuel as [|fuel IH]; intros l; cbn [h_alternation_]; rewrite shift_flatten_alt; destruct (flatten_alt l) as [|h1 [|h2 m]]; try reflexivity;
    set (l' := h1 :: h2 :: m); change (shift k h1 :: shift k h2 :: map (shift k) m) with (map (shift k) l');
    change (map (shift k) (h1 :: h2 :: m)) with (map (shift k) l'); unfold l' at 1; cbn [map];
    change (shift k h1 :: shift k h2 :: map (shift k) m) with (map (shift k) l');
    rewrite (shift_some as_char) by (intros []; reflexivity); (destruct (all_some as_char l'); [now rewrite shift_class|]);
    rewrite (shift_some as_class) by (intros []; reflexivity); (destruct (all_some as_class l'); [now rewrite shift_class|]);
    rewrite shift_concats; destruct (all_some as_concat l') as [[|c cs]|]; try reflexivity.
  cbn [option_map map]. rewrite shift_commons. destruct (fold_left common cs c) as [|p0 p']; [reflexivity|]. cbn [map].
  set (p := p0 :: p'). change (shift k p0 :: map (shift k) p') with (map (shift k) p). rewrite <- shift_concat, map_app. cbn [map]. do 3 f_equal.
  assert (E : forall x, h_concat (skipn (List.length (map (shift k) p)) (map (shift k) x)) = shift k (h_concat (skipn (List.length p) x))).
  { intros x. rewrite map_length, <- shift_concat. f_equal. apply skipn_map. }
  rewrite <- IH. f_equal. cbn [map]. rewrite E. f_equal. rewrite !map_map. apply map_ext. intros x. apply E.
Qed.
Lemma shift_join_alts k l : join_alts (map (shift k) l) = shift k (join_alts l).
Proof.
  unfold join_alts, h_alternation. destruct l as [|h1 [|h2 l]]; try reflexivity. cbn [map]. change (shift k h1 :: shift k h2 :: map (shift k) l) with (map (shift k) (h1 :: h2 :: l)).
  rewrite shift_alternation. change (HAlt (map (shift k) (h1 :: h2 :: l))) with (shift k (HAlt (h1 :: h2 :: l))). now rewrite shift_size.
Qed.
Section Shift.
  Context (digits spaces words : ranges).
  Notation branches := (branches digits spaces words).
  Lemma branches_shift r k : forall i, branches r (i + k) = (map (shift k) (fst (branches r i)), snd (branches r i) + k).
  Proof.
    induction r as [|c| |j|l|min max g r IH|n r IH|a IHa b IHb|a IHa b IHb]; intros i; cbn [Hir.branches]; try reflexivity.
    - cbn. now rewrite shift_class.
    - rewrite IH. destruct (branches r i) as [l j]. cbn [fst snd map]. now rewrite shift_repetition, shift_join_alts.
    - replace (i + k + 1) with (i + 1 + k) by lia. rewrite IH. destruct (branches r (i + 1)) as [l j]. cbn [fst snd map shift]. now rewrite shift_join_alts.
    - rewrite IHa. destruct (branches a i) as [l j]. cbn [fst snd]. rewrite IHb. destruct (branches b j) as [m j']. cbn [fst snd map].
      rewrite <- shift_concat. cbn [map]. now rewrite !shift_join_alts.
    - rewrite IHa. destruct (branches a i) as [l j]. cbn [fst snd]. rewrite IHb. destruct (branches b j) as [m j']. cbn [fst snd map].
      now rewrite !shift_join_alts.
  Qed.
  Lemma branches_anywhere r i j : unhir (join_alts (fst (branches r i))) = unhir (join_alts (fst (branches r j))).
  Proof.
    assert (H : forall i, unhir (join_alts (fst (branches r i))) = unhir (join_alts (fst (branches r 0)))).
    { intros k. replace k with (0 + k) at 1 by lia. rewrite branches_shift. cbn [fst]. now rewrite shift_join_alts, shift_unhir. }
    now rewrite (H i), (H j).
  Qed.
End Shift.
