(** Bounds on the steps of the parsers: lists, alternations, expressions. *)
From Coq Require Import PeanoNat.
From Verif Require Export ProofSteps3.

Lemma parse_optional_within i : within (fun _ => 2%nat) 13 48 0 3 i (parse_optional_steps i).
Proof. apply depth_within. Qed.
Lemma parse_parameter_within i ix : within (fun _ => 2%nat) 13 48 0 3 i (fst2 (parse_parameter_steps i ix)).
Proof. apply depth_within. Qed.

Lemma map_within {A B} w (w' : B -> nat) ko kb e f (p : counted_parser A) (g : A -> B) i :
  (forall a, w' (g a) <= w a)%nat -> within w ko kb e f i (p i) ->
  within w' ko kb (1 + e) (1 + f) i (map_steps p g i).
Proof.
  intros Hw H. unfold within, map_steps in *. rewrite fst_tick, snd_tick, fst_then, snd_then.
  destruct (fst (p i)) as [r a|[]]; cbn [fst snd]; try lia. specialize (Hw a). intuition lia.
Qed.

Lemma parse_alternative_within i :
  within (fun _ => 1%nat) 13 48 24 24 i (parse_alternative_steps i).
Proof.
  pose proof (map_within (fun _ => 2%nat) (fun _ => 1%nat) _ _ _ _ _ AltOptional i (fun _ => le_S _ _ (le_n 1)) (parse_optional_within i)) as H1.
  pose proof (map_within (fun _ => 1%nat) (fun _ => 1%nat) _ _ _ _ _ AltText i (fun _ => le_n 1)
    (verify_esc_within _ i is_without_whitespace_bs)) as H2.
  unfold parse_alternative_steps, alt_steps. cbv zeta. unfold within in *. cbn [alt_from_steps].
  unfold pure_steps. rewrite fst_tick, snd_tick, fst_then, snd_then. cbn [fst snd].
  destruct (fst (map_steps parse_optional_steps AltOptional i)) as [r a|[e|e| | |]]; cbn [fst snd]; try lia.
  { intuition lia. }
  rewrite fst_then, snd_then. cbn [fst snd].
  match type of H2 with match fst ?x with _ => _ end => destruct (fst x) as [r a|[e'|e'| | |]] end;
    cbn [fst snd] in *; try lia. intuition lia.
Qed.

Lemma many1_loop_within {A} (p : counted_parser A) ko kb e f K :
  (forall i, within (fun _ => 1%nat) ko kb e f i (p i)) -> (ko + e + 1 <= K)%nat -> (kb <= K)%nat ->
  forall fuel acc i,
  match fst (many1_loop_steps fuel p acc i) with
  | Ok r l => from r i /\ len r + List.length l <= len i + List.length acc /\
              snd (many1_loop_steps fuel p acc i) <= (ko + e + 1) * (len i - len r) + (1 + f)
  | Bad (BError _) => False
  | Bad _ => snd (many1_loop_steps fuel p acc i) <= K * len i + (1 + e)
  end%nat.
Proof.
  intros Hp HK Hb. induction fuel as [|fuel IH]; intros acc i; cbn [many1_loop_steps]; [cbn; lia|].
  rewrite fst_tick, snd_tick, fst_then, snd_then. pose proof (Hp i) as Hi. unfold within in Hi.
  destruct (fst (p i)) as [r a|[]]; cbn [fst snd].
  - destruct Hi as (F & L & S). rewrite (from_input_len r i F) by lia.
    specialize (IH (a :: acc) r). destruct (fst (many1_loop_steps fuel p (a :: acc) r)) as [r' l|[]].
    + destruct IH as (F' & L' & S'). pose proof (from_len _ _ F'). cbn [List.length] in L'.
      split; [exact (from_trans _ _ _ F' F)|]. split; [lia|]. 
      replace (len i - len r')%nat with ((len i - len r) + (len r - len r'))%nat by lia.
      rewrite Nat.mul_add_distr_l. nia.
    + easy.
    + assert (K * len i = K * (len i - len r) + K * len r)%nat
        by (rewrite <- Nat.mul_add_distr_l; f_equal; lia). nia.
    + assert (K * len i = K * (len i - len r) + K * len r)%nat
        by (rewrite <- Nat.mul_add_distr_l; f_equal; lia). nia.
    + assert (K * len i = K * (len i - len r) + K * len r)%nat
        by (rewrite <- Nat.mul_add_distr_l; f_equal; lia). nia.
    + assert (K * len i = K * (len i - len r) + K * len r)%nat
        by (rewrite <- Nat.mul_add_distr_l; f_equal; lia). nia.
  - split; [apply from_refl|]. rewrite rev_length. split; [lia|]. nia.
  - nia.
  - nia.
  - nia.
  - nia.
Qed.
Lemma branch_within i : within (@List.length _) 38 48 50 25 i (many1_steps parse_alternative_steps i).
Proof.
  unfold within, many1_steps. rewrite fst_tick, snd_tick, fst_then, snd_then.
  pose proof (parse_alternative_within i) as Hi. unfold within in Hi.
  destruct (fst (parse_alternative_steps i)) as [r a|[e|e| | |]]; cbn [fst snd]; try lia.
  destruct Hi as (F & L & S).
  pose proof (many1_loop_within _ _ _ _ _ 48 parse_alternative_within ltac:(lia) ltac:(lia)
    (Datatypes.S (List.length (frag r))) [a] r) as H.
  destruct (fst (many1_loop_steps (Datatypes.S (List.length (frag r))) parse_alternative_steps [a] r)) as [r' l|[]];
    try easy; try lia.
  destruct H as (F' & L' & S'). pose proof (from_len _ _ F'). cbn [List.length] in L'.
  split; [exact (from_trans _ _ _ F' F)|]. lia.
Qed.
Lemma branch_not_empty i r l : fst (many1_steps parse_alternative_steps i) = Ok r l -> l <> [].
Proof.
  rewrite (many1_same _ _ parse_alternative_same). unfold many1.
  destruct (parse_alternative i) as [r1 a|[]]; try easy.
  enough (H : forall fuel acc j, acc <> [] -> many1_loop fuel parse_alternative acc j = Ok r l -> l <> [])
    by (apply H; easy).
  induction fuel as [|fuel IH]; intros acc j Hn; cbn [many1_loop]; [easy|].
  destruct (parse_alternative j) as [r' a'|[]]; try easy.
  - destruct (input_len r' =? input_len j); [easy|]. now apply IH.
  - injection 1 as <- <-. intros E. apply Hn. rewrite <- (rev_involutive acc), E. reflexivity.
Qed.

Lemma tag_steps_le t i : (snd (tag_steps t i) <= 1 + 2 * List.length t)%nat.
Proof.
  unfold tag_steps. rewrite snd_tick. destruct (starts_with t (frag i)) eqn:E; [|cbn [snd]; lia].
  apply starts_with_app in E as [r Hr]. unfold split_result_steps. cbn [snd].
  rewrite Hr, chars_app. lia.
Qed.
Definition weight {A} (l : list (list A)) : nat := List.length (List.concat l).
Lemma weight_rev {A} (l : list (list A)) : weight (rev l) = weight l.
Proof.
  unfold weight. induction l as [|x l IH]; [reflexivity|]. cbn [rev List.concat].
  rewrite concat_app, !app_length, IH. cbn [List.concat]. rewrite app_nil_r. lia.
Qed.
Lemma weight_cons {A} x (l : list (list A)) : weight (x :: l) = (List.length x + weight l)%nat.
Proof. unfold weight. cbn [List.concat]. apply app_length. Qed.

Lemma seps_within fuel : forall acc i,
  let x := separated_list1_loop_steps fuel (tag_steps (s_ "/")) (many1_steps parse_alternative_steps) acc i in
  match fst x with
  | Ok r l => from r i /\ len r + weight l <= len i + weight acc /\ snd x <= 92 * (len i - len r) + 29
  | Bad (BError _) => False
  | Bad _ => snd x <= 92 * len i + 54
  end%nat.
Proof.
  induction fuel as [|fuel IH]; intros acc i; cbv zeta; cbn [separated_list1_loop_steps]; [cbn; lia|].
  rewrite fst_tick, snd_tick, fst_then, snd_then.
  pose proof (tag_within (s_ "/") i) as Ht. pose proof (tag_steps_le (s_ "/") i) as Ht'. unfold within in Ht.
  change (List.length (s_ "/")) with 1%nat in *.
  destruct (fst (tag_steps (s_ "/") i)) as [i1 a|b] eqn:T; rewrite tag_same in T.
  2:{ apply tag_bad in T as [e ->]. cbn [fst snd]. split; [apply from_refl|]. rewrite weight_rev. lia. }
  destruct Ht as (F & L & S). rewrite fst_then, snd_then.
  pose proof (branch_within i1) as Hb. unfold within in Hb.
  destruct (fst (many1_steps parse_alternative_steps i1)) as [i2 l|[]]; cbn [fst snd]; try lia.
  2:{ split; [apply from_refl|]. rewrite weight_rev. lia. }
  destruct Hb as (F2 & L2 & S2). pose proof (from_trans _ _ _ F2 F) as F3. pose proof (from_len _ _ F2).
  rewrite (from_input_len i2 i F3) by lia.
  specialize (IH (l :: acc) i2). cbv zeta in IH.
  destruct (fst (separated_list1_loop_steps fuel (tag_steps (s_ "/")) (many1_steps parse_alternative_steps)
    (l :: acc) i2)) as [r' l'|[]]; try easy; try lia.
  destruct IH as (F' & L' & S'). pose proof (from_len _ _ F'). rewrite weight_cons in L'.
  split; [exact (from_trans _ _ _ F' F3)|]. lia.
Qed.
Lemma list_within i :
  within weight 92 92 105 26 i
    (separated_list1_steps (tag_steps (s_ "/")) (many1_steps parse_alternative_steps) i).
Proof.
  unfold within, separated_list1_steps. rewrite fst_tick, snd_tick, fst_then, snd_then.
  pose proof (branch_within i) as Hb. unfold within in Hb.
  destruct (fst (many1_steps parse_alternative_steps i)) as [i2 l|[]]; cbn [fst snd]; try lia.
  destruct Hb as (F2 & L2 & S2). pose proof (from_len _ _ F2).
  pose proof (seps_within (S (List.length (frag i2))) [l] i2) as H'. cbv zeta in H'.
  destruct (fst (separated_list1_loop_steps (S (List.length (frag i2))) (tag_steps (s_ "/"))
    (many1_steps parse_alternative_steps) [l] i2)) as [r' l'|[]]; try easy; try lia.
  destruct H' as (F' & L' & S'). pose proof (from_len _ _ F'). rewrite weight_cons in L'.
  change (weight (@nil (list (alternative span)))) with 0%nat in L'.
  split; [exact (from_trans _ _ _ F' F2)|]. lia.
Qed.

Lemma peek_tag_steps t i : (snd (peek_steps (tag_steps t) i) <= 2 + 2 * List.length t)%nat.
Proof.
  unfold peek_steps. rewrite snd_tick, snd_then. pose proof (tag_steps_le t i).
  destruct (fst (tag_steps t i)); cbn [snd]; lia.
Qed.
Lemma alternation_list_within i :
  match fst (alternation_list_steps i) with
  | Ok r a => from r i /\ len r + weight a <= len i /\
              snd (alternation_list_steps i) <= 92 * (len i - len r) + 109
  | Bad _ => snd (alternation_list_steps i) <= 92 * len i + 109
  end%nat.
Proof.
  unfold alternation_list_steps. rewrite !fst_then, !snd_then.
  pose proof (list_within i) as H. unfold within in H.
  destruct (fst (separated_list1_steps (tag_steps (s_ "/")) (many1_steps parse_alternative_steps) i)) as [r a|b].
  - destruct H as (F & L & S). pose proof (from_len _ _ F).
    pose proof (peek_tag_steps (s_ "/") r) as Hp. change (List.length (s_ "/")) with 1%nat in Hp.
    rewrite !snd_then, !fst_then.
    destruct (fst (peek_steps (tag_steps (s_ "/")) r)) as [r' a'|[]]; cbn [fst snd]; try lia;
      destruct (Nat.eqb (List.length a) 1); cbn [fst snd]; [lia|split; [assumption|lia]|..];
      lia || (split; [assumption|lia]).
  - destruct b as [e|e| | |]; cbn [fst snd]; cbn beta iota in H; try lia. destruct e; cbn [fst snd]; try lia.
    destruct k; cbn [fst snd]; try lia. rewrite !fst_then, !snd_then.
    pose proof (peek_tag_steps (s_ "/") i0) as Hp. change (List.length (s_ "/")) with 1%nat in Hp.
    destruct (fst (peek_steps (tag_steps (s_ "/")) i0)) as [r' a'|[]]; cbn [fst snd]; try lia.
    rewrite fst_then, snd_then. cbn [fst snd]. pose proof (fail_take_one_step EmptyAlternation i0).
    unfold fail_take_steps in *. cbn [snd] in *. lia.
Qed.
Lemma parse_alternation_within i :
  match fst (parse_alternation_steps i) with
  | Ok r a => from r i /\ snd (parse_alternation_steps i) <= 93 * (len i - len r) + 110
  | Bad _ => snd (parse_alternation_steps i) <= 95 * len i + 110
  end%nat.
Proof.
  unfold parse_alternation_steps. rewrite fst_tick, snd_tick, !fst_then, !snd_then.
  pose proof (alternation_list_within i) as H.
  destruct (fst (alternation_list_steps i)) as [r a|b]; [|cbn [fst snd]; lia].
  destruct H as (F & L & S). pose proof (from_len _ _ F). rewrite fst_tick, snd_tick.
  unfold alternatives. fold (weight a). destruct (contains_only_optional a); [|cbn [fst snd]; split; [assumption|lia]].
  rewrite fst_tick, snd_tick. destruct (span_len input_len a) as [n|]; cbn [fst snd]; [|lia].
  rewrite fst_then, snd_then. cbn [fst snd].
  pose proof (fail_take_len OnlyOptionalInAlternation i n). unfold fail_take_steps in *. cbn [snd] in *. lia.
Qed.
