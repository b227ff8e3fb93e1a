(** Reading what [Display] prints for a normal form gives that normal form again. *)
From Coq Require Import PeanoNat.
From Verif Require Export ProofNormal SpecNormal.

Definition numbered (i : N) (l : list (N * (option str * bool))) : Prop := map fst l = upto i (List.length l).
Lemma numbered_app i l m : numbered i (l ++ m) <-> numbered i l /\ numbered (i + N.of_nat (List.length l)) m.
Proof.
  unfold numbered. rewrite map_app, app_length, upto_app. split; [|now intros [-> ->]].
  assert (E : List.length (map fst l) = List.length (upto i (List.length l))) by now rewrite map_length, upto_length.
  revert E. generalize (map fst l) (upto i (List.length l)). intros x. induction x as [|a x IH]; intros [|b y] E; try discriminate E; [easy|].
  intros H. injection H as -> H. destruct (IH y ltac:(now injection E) H) as [-> ->]. easy.
Qed.
Lemma numbered_hide i l : numbered i (map hide l) <-> numbered i l.
Proof. unfold numbered. now rewrite hide_fst, map_length. Qed.
Definition alts_of (h : hir) : list hir := match h with HAlt l => l | _ => [h] end.
Lemma join_alts_of h : normal h -> join_alts (alts_of h) = h.
Proof.
  intros Hh. destruct h as [| | | | | | |l]; try reflexivity. apply normal_of_alt in Hh as [Hh _]. cbn [alts_of]. pose proof (proj1 Hh) as Hl.
  destruct l as [|h1 [|h2 l]]; cbn in Hl; try lia. unfold join_alts. unfold h_alternation. now rewrite alternation_normal.
Qed.

Section Reread.
  Context (digits spaces words : ranges).
  Notation branches := (branches digits spaces words).
  Definition gives (r : re) (h : hir) : Prop :=
    forall i, numbered i (caps h) -> branches r i = (alts_of h, i + N.of_nat (List.length (caps h))).
  Definition reread (h : hir) : Prop := exists r, adds (show true h) [r] /\ (is_rep h = false -> adds_settled (show true h) r) /\ gives r h.
  Lemma reread_one h r : adds_one (show true h) r -> gives r h -> reread h.
  Proof. intros H1 H2. exists r. split; [now apply adds_one_adds|]. split; [intros _; now apply adds_one_settled|exact H2]. Qed.
  Lemma gives_free r h : caps h = [] -> (forall i, branches r i = (alts_of h, i)) -> gives r h.
  Proof. intros H1 H2 i _. rewrite H1, H2. f_equal. cbn. lia. Qed.
  Lemma branches_literal t : t <> [] -> forall i, branches (mk_cat (map RLit t)) i = ([HLit t], i).
  Proof.
    induction t as [|c [|c' t] IH]; intros Ht i; [easy|reflexivity|]. specialize (IH ltac:(easy) i).
    change (mk_cat (map RLit (c :: c' :: t))) with (RCat (RLit c) (mk_cat (map RLit (c' :: t)))). cbn [Hir.branches]. rewrite IH. reflexivity.
  Qed.
  Lemma all_reread l : Forall reread l -> exists rs, Forall2 (fun h r => adds (show true h) [r]) l rs /\ Forall2 (fun h r => gives r h) l rs.
  Proof.
    induction 1 as [|h l (r & H1 & _ & H2) Hl (rs & H3 & H4)]; [exists []; split; constructor|].
    exists (r :: rs). split; constructor; assumption.
  Qed.
  Lemma gives_cat l rs : Forall2 (fun h r => gives r h) l rs -> Forall normal l -> Forall atom l -> spaced l -> (1 <= List.length l)%nat ->
    forall i, numbered i (flat_map caps l) ->
      join_alts (fst (branches (mk_cat rs) i)) = h_concat l /\
      snd (branches (mk_cat rs) i) = i + N.of_nat (List.length (flat_map caps l)) /\
      ((2 <= List.length l)%nat -> fst (branches (mk_cat rs) i) = [h_concat l]).
  Proof.
    induction 1 as [|h r l rs Hh Hl IH]; intros Hn Ha Hs Hlen i Hi; [cbn in Hlen; lia|]. inversion_clear Hn as [|? ? N1 N2]. inversion_clear Ha as [|? ? A1 A2].
    destruct l as [|h' l].
    - inversion Hl; subst rs. cbn [mk_cat flat_map] in *. rewrite app_nil_r in *. rewrite (Hh i Hi). cbn [fst snd]. rewrite join_alts_of by exact N1.
      split; [|split; [reflexivity|cbn; lia]]. unfold h_concat. rewrite flatten_atoms by auto. rewrite (proj1 (join_spaced [h] (Forall_cons _ N1 N2) Hs)). reflexivity.
    - cbn [flat_map] in Hi. change (flat_map caps (h :: h' :: l)) with (caps h ++ flat_map caps (h' :: l)). rewrite app_length.
      change (caps h' ++ flat_map caps l) with (flat_map caps (h' :: l)) in Hi. apply numbered_app in Hi as [Hi1 Hi2].
      destruct (IH N2 A2 (proj2 Hs) ltac:(cbn; lia) _ Hi2) as (I1 & I2 & I3).
      destruct rs as [|r' rs]; [inversion Hl|]. change (mk_cat (r :: r' :: rs)) with (RCat r (mk_cat (r' :: rs))). cbn [Hir.branches].
      rewrite (Hh i Hi1). destruct (branches (mk_cat (r' :: rs)) _) as [m k]. cbn [fst snd] in *. rewrite join_alts_of by exact N1. rewrite I1, I2.
      assert (E : h_concat [h; h_concat (h' :: l)] = h_concat (h :: h' :: l)).
      { destruct l as [|h'' l].
        - replace (h_concat [h']) with h'; [reflexivity|]. unfold h_concat. rewrite flatten_atoms by exact A2.
          now rewrite (proj1 (join_spaced [h'] N2 (proj2 Hs))).
        - rewrite (concat_normal (h' :: h'' :: l)) by (first [assumption|exact (proj2 Hs)|cbn; lia]). unfold h_concat at 1. unfold h_concat at 1.
          replace (flatten_cat [h; HCat (h' :: h'' :: l)]) with (flatten_cat (h :: h' :: h'' :: l)); [reflexivity|].
          rewrite flatten_atoms by auto. unfold flatten_cat. cbn [flat_map]. rewrite app_nil_r. destruct h; easy. }
      rewrite E. split; [reflexivity|]. split; [lia|reflexivity].
  Qed.
  Lemma gives_alt l rs : Forall2 (fun h r => gives r h) l rs -> Forall normal l -> Forall not_alt l -> (1 <= List.length l)%nat ->
    forall i, numbered i (flat_map caps l) -> branches (mk_alt rs) i = (l, i + N.of_nat (List.length (flat_map caps l))).
  Proof.
    induction 1 as [|h r l rs Hh Hl IH]; intros Hn Ha Hlen i Hi; [cbn in Hlen; lia|]. inversion_clear Hn as [|? ? N1 N2]. inversion_clear Ha as [|? ? A1 A2].
    assert (E1 : alts_of h = [h]) by now destruct h.
    destruct l as [|h' l].
    - inversion Hl; subst rs. cbn [mk_alt flat_map] in *. rewrite app_nil_r in *. now rewrite (Hh i Hi), E1.
    - cbn [flat_map] in Hi. change (flat_map caps (h :: h' :: l)) with (caps h ++ flat_map caps (h' :: l)). rewrite app_length.
      change (caps h' ++ flat_map caps l) with (flat_map caps (h' :: l)) in Hi. apply numbered_app in Hi as [Hi1 Hi2].
      specialize (IH N2 A2 ltac:(cbn; lia) _ Hi2).
      destruct rs as [|r' rs]; [inversion Hl|]. change (mk_alt (r :: r' :: rs)) with (RAlt r (mk_alt (r' :: rs))). cbn [Hir.branches].
      rewrite (Hh i Hi1), IH, join_alts_of by exact N1. f_equal. lia.
  Qed.
  Lemma show_reread h : normal h -> counted h = true -> reread h.
  Proof.
    induction h as [|t|k|l|a b g h IH|i n h IH|l IH|l IH] using hir_ind'; intros Hn Hc.
    - apply (reread_one HEmpty REmpty); [|now apply gives_free]. apply (adds_one_group [] REmpty). apply (adds_reads [] []), adds_nil.
    - destruct t as [|c [|c' t]]; [easy| |].
      + apply (reread_one (HLit [c]) (RLit c)); [|now apply gives_free]. cbn [show flat_map]. rewrite app_nil_r. apply adds_show_char.
      + apply (reread_one (HLit (c :: c' :: t)) (mk_cat (map RLit (c :: c' :: t)))).
        * change (show true (HLit (c :: c' :: t))) with (group_text (flat_map show_char (c :: c' :: t))).
          apply adds_one_group, adds_reads, adds_show_chars.
        * apply gives_free; [reflexivity|]. now apply branches_literal.
    - destruct Hn as [Hk Hs]. destruct k as [|x k].
      + apply (reread_one (HClass []) (RClass (mkClass false []))); [|now apply gives_free]. intros m items alts stack Hm. now destruct Hm.
      + apply (reread_one (HClass (x :: k)) (RClass (mkClass false (flat_map print_items (x :: k))))).
        * apply adds_class; [eapply parted_ok, Hk|easy].
        * apply gives_free; [reflexivity|]. intros i. cbn [Hir.branches]. unfold class_ranges. cbn [cl_items cl_negated].
          rewrite print_split, (canonical_split 0) by exact Hk. now rewrite Hs.
    - assert (Hl : adds_settled (show true (HLook l)) (RLook l)).
      { intros m items alts stack Hm. destruct l; [exists MNormal|exists MNormal|exists MWord|exists MNormal];
          (split; [split; [constructor|discriminate]|]); now destruct Hm. }
      exists (RLook l). split; [now apply adds_settled_adds|]. split; [intros _; exact Hl|now apply gives_free].
    - destruct Hn as [[Hr Hs] Hn]. cbn [counted] in Hc. apply andb_prop in Hc as [Hg Hc]. destruct (IH Hn Hc) as (r & H1 & H2 & H3).
      assert (Hone : adds_settled (match h with HRep _ _ _ _ => group_text (show true h) | _ => show true h end) r).
      { destruct (is_rep h) eqn:E.
        - destruct h; try discriminate E. apply adds_one_settled, adds_one_group. change r with (mk_cat [r]). now apply adds_reads.
        - specialize (H2 eq_refl). now destruct h. }
      assert (Hm : (a =? 1) && opt_eqb N.eqb b (Some 1) = false).
      { destruct ((a =? 1) && opt_eqb N.eqb b (Some 1)) eqn:Hm; [|reflexivity]. exfalso. destruct b as [b|]; [|now rewrite andb_false_r in Hm].
        apply andb_prop in Hm as [->%N.eqb_eq ->%N.eqb_eq]. assert (E : h = HRep 1 (Some 1) g h).
        { rewrite <- Hs at 1. unfold h_repetition. now destruct (only_empty h). }
        assert (S (hir_size h) = hir_size h) by now rewrite E at 2. lia. }
      assert (Eg : printed_greedy a b g = g).
      { unfold printed_greedy. destruct b as [b|]; [|reflexivity]. destruct (N.eqb_spec a b) as [->|]; [|reflexivity]. cbn [opt_eqb] in Hg.
        rewrite N.eqb_refl, orb_false_r in Hg. now symmetry. }
      exists (RRep a b g r). split; [|split; [discriminate|]].
      + change (show true (HRep a b g h)) with (match h with HRep _ _ _ _ => group_text (show true h) | _ => show true h end ++ rep_suffix a b g).
        rewrite <- Eg at 2. now apply adds_rep.
      + intros i Hi. cbn [caps] in Hi. rewrite numbered_hide in Hi. cbn [Hir.branches caps alts_of]. rewrite (H3 i Hi), join_alts_of, Hs, map_length by exact Hn. reflexivity.
    - destruct Hn as [Hm Hn]. destruct (IH Hn Hc) as (r & H1 & H2 & H3). apply (reread_one (HCap i n h) (RCap n r)).
      + change r with (mk_cat [r]). apply adds_reads in H1. cbn [show]. destruct n as [n|].
        * rewrite <- !app_assoc. apply adds_one_readable; [exact Hm|exact H1].
        * apply adds_one_capture; [|exact H1]. apply (parse_no_question (show true h) (mk_cat [r])). now apply parse_reads_iff.
      + intros j [Hj Hi]%(numbered_app j [_]). cbn in Hj. injection Hj as ->. cbn [List.length] in Hi. change (N.of_nat 1) with 1 in Hi. cbn [Hir.branches caps alts_of List.length].
        rewrite (H3 _ Hi), join_alts_of by exact Hn. f_equal. lia.
    - apply normal_cat in Hn as [(Hlen & Ha & Hs) Hn]. cbn [counted] in Hc.
      assert (Hl : Forall reread l).
      { rewrite forallb_forall in Hc. apply Forall_forall. intros x Hx. rewrite Forall_forall in IH, Hn. auto. }
      destruct (all_reread l Hl) as (rs & H1 & H2). apply (reread_one (HCat l) (mk_cat rs)); [apply adds_one_group, adds_reads, adds_concat, H1|].
      intros i Hi. destruct (gives_cat l rs H2 Hn Ha Hs ltac:(lia) i Hi) as (_ & G1 & G2). specialize (G2 Hlen).
      destruct (branches (mk_cat rs) i). cbn [fst snd] in *. subst. rewrite concat_normal by assumption. reflexivity.
    - apply normal_of_alt in Hn as [Ha Hn]. cbn [counted] in Hc.
      assert (Hl : Forall reread l).
      { rewrite forallb_forall in Hc. apply Forall_forall. intros x Hx. rewrite Forall_forall in IH, Hn. auto. }
      destruct (all_reread l Hl) as (rs & H1 & H2). destruct Ha as (Hlen & Ha & _). apply (reread_one (HAlt l) (mk_alt rs)).
      + apply adds_one_group. inversion H1; subst; [cbn in Hlen; lia|]. now apply join_bars.
      + intros i Hi. apply (gives_alt l rs H2 Hn Ha ltac:(lia) i Hi).
  Qed.
  Lemma read_again h : normal h -> counted h = true -> numbered 1 (caps h) ->
    exists r, parse_syntax (show true h) = Done r /\ translate digits spaces words r = h.
  Proof.
    intros Hn Hc Hi. destruct (show_reread h Hn Hc) as (r & H1 & _ & H2). exists r. split.
    - apply parse_reads_iff. change r with (mk_cat [r]). now apply adds_reads.
    - unfold translate. rewrite (H2 1 Hi). now apply join_alts_of.
  Qed.
End Reread.
