From Verif Require Export Equal SpecAst SpecErrors.
From Verif Require Import ProofParse2.
From Coq Require Export RelationClasses.

Lemma str_eqb_iff a : forall b, str_eqb a b = true <-> a = b.
Proof.
  induction a as [|x a IH]; intros [|y b]; cbn [str_eqb]; try easy. rewrite andb_true_iff, N.eqb_eq, IH. split.
  - now intros [-> ->].
  - intros [= -> ->]; easy.
Qed.

Lemma span_eq_iff a b : span_eq a b = true <-> a = b.
Proof.
  destruct a as [o l s], b as [o' l' s']; unfold span_eq; cbn [off line frag].
  rewrite !andb_true_iff, !N.eqb_eq, str_eqb_iff. split.
  - now intros ((-> & ->) & ->).
  - intros [= -> -> ->]; easy.
Qed.

Section Derived.
  Context {I J : Type} (f : I -> J) (eq : I -> I -> bool) (spec : forall a b, eq a b = true <-> f a = f b).

  Lemma vec_eq_iff {A B} (g : A -> B) (r : A -> A -> bool) : (forall a b, r a b = true <-> g a = g b) ->
    forall a b, vec_eq r a b = true <-> map g a = map g b.
  Proof.
    intros H a. induction a as [|x a IH]; intros [|y b]; cbn [vec_eq map]; try easy.
    rewrite andb_true_iff, H, IH. split; [now intros [-> ->]|intros [= -> ->]; easy].
  Qed.

  Lemma optional_eq_iff a b : optional_eq eq a b = true <-> map_optional f a = map_optional f b.
  Proof. unfold optional_eq, map_optional. rewrite spec. split; congruence. Qed.

  Lemma alternative_eq_iff a b : alternative_eq eq a b = true <-> map_alternative f a = map_alternative f b.
  Proof.
    destruct a as [a|a], b as [b|b]; cbn [alternative_eq map_alternative]; try easy.
    - rewrite optional_eq_iff. split; congruence.
    - rewrite spec. split; congruence.
  Qed.

  Lemma single_eq_iff a b : single_expression_eq eq a b = true <-> map_single f a = map_single f b.
  Proof.
    destruct a as [a|a|a|a|a], b as [b|b|b|b|b]; cbn [single_expression_eq map_single]; try easy.
    - unfold alternation_eq. rewrite (vec_eq_iff (map (map_alternative f))).
      + fold (map_alternation f a) (map_alternation f b). split; congruence.
      + apply vec_eq_iff, alternative_eq_iff.
    - rewrite optional_eq_iff. split; congruence.
    - unfold parameter_eq. rewrite andb_true_iff, spec, N.eqb_eq. unfold map_parameter. split; [now intros [-> ->]|now intros [= -> ->]].
    - rewrite spec. split; congruence.
    - rewrite spec. split; congruence.
  Qed.

  Lemma expression_eq_iff a b : expression_eq eq a b = true <-> map_expression f a = map_expression f b.
  Proof. apply vec_eq_iff, single_eq_iff. Qed.

  Lemma error_kind_eq_iff a b : error_kind_eq a b = true <-> a = b.
  Proof. destruct a, b; cbn; easy. Qed.

  Lemma error_eq_iff a b : error_eq eq a b = true <-> map_error f a = map_error f b.
  Proof.
    destruct a as [a|a|a|a|a|a|a|a|a|a|a|a|a|a k|], b as [b|b|b|b|b|b|b|b|b|b|b|b|b|b k'|]; cbn [error_eq map_error]; try easy.
    all: rewrite ?andb_true_iff, ?error_kind_eq_iff, spec; split; [intros H; now rewrite ?H || (destruct H as [-> ->])|now intros [= ->]|..]; try easy.
    all: now intros [= -> ->].
  Qed.
End Derived.

Lemma map_expression_id {I} (e : expression I) : map_expression (fun i => i) e = e.
Proof.
  assert (A : forall l : list (alternative I), map (map_alternative (fun i => i)) l = l).
  { intros l. erewrite map_ext; [apply map_id|]. intros [[o]|t]; reflexivity. }
  unfold map_expression. erewrite map_ext; [apply map_id|]. intros [a|[o]|[p k]|t|w]; try reflexivity.
  cbn [map_single]. f_equal. unfold map_alternation. erewrite map_ext; [apply map_id|]. exact A.
Qed.

Lemma expression_eq_spans a b : expression_eq span_eq a b = true <-> a = b.
Proof.
  rewrite (expression_eq_iff (fun i => i)); [now rewrite !map_expression_id|]. intros; apply span_eq_iff.
Qed.

Lemma error_eq_spans (a b : error span) : error_eq span_eq a b = true <-> a = b.
Proof.
  rewrite (error_eq_iff (fun i => i)); [|intros; apply span_eq_iff]. now destruct a, b.
Qed.

Lemma equal_texts s1 s2 e1 e2 : addressable s1 -> addressable s2 ->
  expression_parse s1 = RetOk e1 -> expression_parse s2 = RetOk e2 ->
  expression_eq (fun a b => str_eqb (frag a) (frag b)) e1 e2 = true <-> s1 = s2.
Proof.
  intros A1 A2 P1 P2. rewrite (expression_eq_iff frag) by (intros; apply str_eqb_iff). split.
  - intros H. now rewrite <- (lossless s1 e1 A1 P1), <- (lossless s2 e2 A2 P2), H.
  - intros ->. congruence.
Qed.

Lemma equal_parsed s1 s2 e1 e2 : addressable s1 -> addressable s2 ->
  expression_parse s1 = RetOk e1 -> expression_parse s2 = RetOk e2 ->
  expression_eq span_eq e1 e2 = true <-> s1 = s2.
Proof.
  intros A1 A2 P1 P2. rewrite expression_eq_spans. split.
  - intros ->. now rewrite <- (lossless s1 e2 A1 P1), <- (lossless s2 e2 A2 P2).
  - intros ->. congruence.
Qed.

(** The contract of [Eq]. *)
Section Contract.
  Context {A : Type}.
  Definition equivalence (eq : A -> A -> bool) := (forall a, eq a a = true) /\ (forall a b, eq a b = true -> eq b a = true) /\
    (forall a b c, eq a b = true -> eq b c = true -> eq a c = true).
End Contract.

Lemma vec_equivalence {A} (eq : A -> A -> bool) : equivalence eq -> equivalence (vec_eq eq).
Proof.
  intros (R & S & T). repeat split.
  - induction a as [|x a IH]; [reflexivity|]. cbn [vec_eq]. now rewrite R, IH.
  - induction a as [|x a IH]; intros [|y b]; cbn [vec_eq]; try easy. rewrite !andb_true_iff. intros [? ?]; auto.
  - induction a as [|x a IH]; intros [|y b] [|z c]; cbn [vec_eq]; try easy. rewrite !andb_true_iff. intros [? ?] [? ?]; eauto.
Qed.

Section Contract2.
  Context {I : Type} (eq : I -> I -> bool) (E : equivalence eq).

  Lemma alternative_equivalence : equivalence (alternative_eq eq).
  Proof.
    destruct E as (R & S & T). repeat split.
    - intros [[o]|t]; cbn; apply R.
    - intros [[o]|t] [[o']|t']; cbn; try easy; apply S.
    - intros [[o]|t] [[o']|t'] [[o'']|t'']; cbn; try easy; apply T.
  Qed.

  Lemma single_equivalence : equivalence (single_expression_eq eq).
  Proof.
    pose proof (vec_equivalence _ (vec_equivalence _ alternative_equivalence)) as (R' & S' & T').
    destruct E as (R & S & T). repeat split.
    - intros [a|[o]|[p k]|t|w]; cbn [single_expression_eq]; auto; [exact (R' a)|apply R|]. unfold parameter_eq; cbn [par_input par_id]. now rewrite R, N.eqb_refl.
    - intros [a|[o]|[p k]|t|w] [a'|[o']|[p' k']|t'|w']; cbn [single_expression_eq]; try easy; try apply S.
      + apply S'.
      + unfold parameter_eq; cbn [par_input par_id]. rewrite !andb_true_iff, !N.eqb_eq. intros [? ->]; auto.
    - intros [a|[o]|[p k]|t|w] [a'|[o']|[p' k']|t'|w'] [a''|[o'']|[p'' k'']|t''|w'']; cbn [single_expression_eq]; try easy; try apply T.
      + apply T'.
      + unfold parameter_eq; cbn [par_input par_id]. rewrite !andb_true_iff, !N.eqb_eq. intros [? ->] [? ->]; eauto.
  Qed.

  Lemma expression_equivalence : equivalence (expression_eq eq).
  Proof. apply vec_equivalence, single_equivalence. Qed.

  Lemma error_equivalence : equivalence (error_eq eq).
  Proof.
    destruct E as (R & S & T). repeat split.
    - intros []; cbn; auto. rewrite R. now apply error_kind_eq_iff.
    - intros [] []; cbn; try easy; try apply S. rewrite !andb_true_iff, !error_kind_eq_iff. intros [? ->]; auto.
    - intros [] [] []; cbn; try easy; try apply T. rewrite !andb_true_iff, !error_kind_eq_iff. intros [? ->] [? ->]; eauto.
  Qed.
End Contract2.

Lemma equivalence_iff {A} (eq : A -> A -> bool) : equivalence eq <-> Equivalence (fun a b => eq a b = true).
Proof.
  split.
  - intros (R & S & T). split; red; intros *; eauto.
  - intros [R S T]. split; [exact R|]. split; [exact S|exact T].
Qed.

Lemma expression_eq_lawful {I} (eq : I -> I -> bool) : Equivalence (fun a b => eq a b = true) ->
  Equivalence (fun a b => expression_eq eq a b = true).
Proof. rewrite <- !equivalence_iff. apply expression_equivalence. Qed.
Lemma error_eq_lawful {I} (eq : I -> I -> bool) : Equivalence (fun a b => eq a b = true) ->
  Equivalence (fun a b => error_eq eq a b = true).
Proof. rewrite <- !equivalence_iff. apply error_equivalence. Qed.
