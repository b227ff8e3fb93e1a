(** Proofs about the automaton of a regex: on a regex without loops that read nothing, the backtracker finds what the
    search of Match.v finds. *)
From Verif Require Export ProofAutomaton.
Require Import Lia PeanoNat.

Section Found.
  Context (digit space word : char -> bool) (r : re) (subject : str).
  Notation prog := (program digit space word r).
  Notation start := (entry digit space word r).
  Notation G := (S (List.length (groups r))).
  Notation empty := (repeat (@None nat) (2 * G)).
  Notation outcomes := (outcomes prog subject).
  Notation turn := (turn prog start subject).
  Notation turns := (turns prog start subject).

  Lemma nth_repeat_none n i : nth i (repeat (@None nat) n) None = None.
  Proof. revert i. induction n as [|n IH]; intros [|i]; cbn; auto. Qed.
  Lemma read_all c sl : List.length c = G -> updates subject 0 c empty sl -> map (group_at subject sl) (seq 0 G) = c.
  Proof.
    intros Hc Hu. apply nth_ext with (d := None) (d' := None); [now rewrite map_length, seq_length|].
    intros i Hi. rewrite map_length, seq_length in Hi.
    rewrite (nth_indep _ None (group_at subject sl 0)) by (now rewrite map_length, seq_length).
    rewrite map_nth, seq_nth by exact Hi. cbn [Nat.add]. specialize (Hu i). unfold cap_at in Hu. cbn [Nat.ltb Nat.leb] in Hu. rewrite Nat.sub_0_r in Hu.
    destruct (nth i c None) as [t|].
    - destruct Hu as (a & b & Hp & <-). unfold group_at. unfold pair_at in Hp. pose proof (f_equal fst Hp) as H1. pose proof (f_equal snd Hp) as H2. cbn [fst snd] in H1, H2. now rewrite H1, H2.
    - unfold group_at. unfold pair_at in Hu. rewrite !nth_repeat_none in Hu. pose proof (f_equal fst Hu) as H1. cbn [fst] in H1. now rewrite H1.
  Qed.
  Lemma program_placed : placed prog 1 (fst (compile digit space word (RCap None r) 0%nat 0%nat 1%nat)).
  Proof. intros i x Hx. exact Hx. Qed.

  Lemma program_outcomes pre s : moving_loops digit space word r -> subject = pre ++ s -> exists l,
    outcomes start (List.length pre) empty l /\
    map (fun sl => map (group_at subject sl) (seq 0 G)) l = map (fun w => Some (w_mid w) :: w_caps w) (ways digit space word r pre s).
  Proof.
    intros Hm Hs. assert (Hc := compile_tries digit space word prog subject (2 * G) (RCap None r) Hm 0%nat (Nat.le_refl _) 0%nat 1%nat program_placed pre s Hs).
    destruct (Hc empty) as (ts & Et & Ft & Ot); [apply repeat_length|]. exists (map snd ts). split.
    - replace (map snd ts) with (List.concat (map (fun t => [snd t]) ts)); [|clear; induction ts; cbn; congruence].
      apply Ot. clear. induction ts as [|t ts IH]; constructor; [|exact IH]. now apply o_match.
    - transitivity (map w_caps (map fst ts)); [|rewrite Et; cbn [ways]; now rewrite map_map].
      clear Ot Et. induction Ft as [|[w sl] ts (_ & H2 & H3 & _) _ IH]; [reflexivity|]. cbn [map]. f_equal; [|exact IH].
      now apply read_all.
  Qed.

  Lemma run_search s : forall pre vis, moving_loops digit space word r -> subject = pre ++ s -> (forall v, In v vis -> dead prog subject v) ->
    exists c, star prog start subject (mkstate (List.length pre) [Step start (List.length pre)] empty vis) c /\
      exists x, turn c = inr x /\ option_map (fun sl => map (group_at subject sl) (seq 0 G)) x =
        option_map (fun '(_, w) => Some (w_mid w) :: w_caps w) (search digit space word r pre s).
  Proof.
    induction s as [|a s IH]; intros pre vis Hm Hs Hv; destruct (program_outcomes pre _ Hm Hs) as (l & Ho & Hl);
      pose proof (explore prog start subject _ _ _ _ Ho (List.length pre) [] vis (fun v Hi _ => Hv v Hi)) as He; cbn [search].
    - destruct l as [|sl l].
      + destruct He as (vis' & Hr & _). eexists. split; [exact Hr|]. destruct (ways digit space word r pre []); [|discriminate Hl].
        exists None. split; [|reflexivity]. unfold Automaton.turn. rewrite Hs, app_nil_r, Nat.ltb_irrefl. reflexivity.
      + destruct He as (c & Hr & Ht). exists c. split; [exact Hr|]. exists (Some sl). split; [exact Ht|].
        destruct (ways digit space word r pre []) as [|w ws]; [discriminate Hl|]. cbn in *. congruence.
    - destruct l as [|sl l].
      + destruct He as (vis' & Hr & Hd). destruct (ways digit space word r pre (a :: s)); [|discriminate Hl].
        destruct (IH (pre ++ [a]) vis') as (c & Hr' & Hx); [exact Hm|now rewrite <- app_assoc|intros v Hi; destruct (Hd v Hi); auto|].
        exists c. split; [|exact Hx]. eapply star_trans; [exact Hr|]. eapply star_turn; [|exact Hr'].
        unfold Automaton.turn. rewrite app_length, Nat.add_1_r. destruct (Nat.ltb_spec (List.length pre) (List.length subject)) as [|H]; [reflexivity|].
        rewrite Hs, app_length in H. cbn in H. lia.
      + destruct He as (c & Hr & Ht). exists c. split; [exact Hr|]. exists (Some sl). split; [exact Ht|].
        destruct (ways digit space word r pre (a :: s)) as [|w ws]; [discriminate Hl|]. cbn in *. congruence.
  Qed.
End Found.

(** Enough turns for an automaton and a subject. *)
Lemma automaton_ends digit space word r s : exists x,
  automaton_captures digit space word r s (2 * (S (List.length (program digit space word r)) * S (List.length s))) = Some x.
Proof.
  unfold automaton_captures, backtrack.
  destruct (turns_end (program digit space word r) (entry digit space word r) s _ _ (first_fine _ _ _ _) (first_left (program digit space word r) (entry digit space word r) s (repeat None (2 * S (List.length (groups r)))))) as [x Hx].
  rewrite Hx. eexists. reflexivity.
Qed.
Lemma automaton_fun digit space word r s n m x y : automaton_captures digit space word r s n = Some x ->
  automaton_captures digit space word r s m = Some y -> x = y.
Proof.
  unfold automaton_captures, backtrack. destruct (turns _ _ _ n _) as [a|] eqn:E1; [|discriminate]. destruct (turns _ _ _ m _) as [b|] eqn:E2; [|discriminate].
  rewrite (turns_fun _ _ _ _ _ _ E1 _ _ E2). cbn [option_map]. congruence.
Qed.
Lemma automaton_finds digit space word r s : moving_loops digit space word r ->
  automaton_captures digit space word r s (2 * (S (List.length (program digit space word r)) * S (List.length s))) =
  Some (captures digit space word r s).
Proof.
  intros Hm. destruct (automaton_ends digit space word r s) as [x Hx]. rewrite Hx. f_equal.
  destruct (run_search digit space word r s s [] [] Hm eq_refl) as (c & Hr & y & Ht & Hy); [intros v []|].
  destruct (star_turns _ _ _ _ _ _ Hr Ht) as [n Hn].
  apply (automaton_fun digit space word r s _ n _ _ Hx). unfold automaton_captures, backtrack. cbn [List.length] in Hn. rewrite Hn.
  cbn [option_map]. unfold captures. now rewrite <- Hy.
Qed.
