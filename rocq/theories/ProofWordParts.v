(** Words of few texts and optionals are parsed in linear time. *)
From Verif Require Import SpecRescan SpecWordParts ProofSteps5 ProofRescan ProofExpand3.
From Coq Require Import Lia.

Lemma parts_tail k x e : parts_within k (x :: e) -> parts_within k e.
Proof. intros H l r ->. now apply (H (x :: l)). Qed.
Lemma rescanned_parts k : forall e c, parts_within k e -> (c + word_parts e <= k)%nat ->
  (rescanned e + c * word_length e <= k * List.length (source e))%nat.
Proof.
  induction e as [|x e IH]; intros c P L; [cbn; lia|]. pose proof (parts_tail _ _ _ P) as P'.
  pose proof (P' [] e eq_refl) as P0. unfold source in *. cbn [map List.concat rescanned]. rewrite app_length.
  destruct x as [a|o|p|t|t]; cbn [word_length word_parts src_single] in *.
  - specialize (IH O P' P0). nia.
  - specialize (IH (S c) P' ltac:(lia)). rewrite !app_length. cbn [List.length s_] in *. nia.
  - specialize (IH O P' P0). nia.
  - specialize (IH (S c) P' ltac:(lia)). nia.
  - specialize (IH O P' P0). nia.
Qed.
Lemma parse_parts_within k s e : addressable s -> expression_parse s = RetOk e -> parts_within k (map_expression frag e) ->
  (steps_of (expression_parse_steps s) <= (300 + 92 * k) * List.length s + 146)%nat.
Proof.
  intros Hs He Hk. pose proof (parse_by_words s e Hs He) as H.
  pose proof (rescanned_parts k _ 0 Hk (Hk [] _ eq_refl)) as R. destruct (parsed_wf s e Hs He) as [_ Hsrc]. rewrite Hsrc in R. nia.
Qed.
