(** The translation to [Hir] gives a normal form, which reading back what [Display] prints does not change. *)
From Coq Require Import PeanoNat.
From Verif Require Export ProofPrint.

(** ** Ranges that neither overlap nor touch *)
Fixpoint parted (low : N) (k : ranges) : Prop :=
  match k with [] => True | (a, b) :: k' => low <= a /\ a <= b /\ parted (b + 2) k' end.
Lemma parted_weaken low low' k : low' <= low -> parted low k -> parted low' k.
Proof. destruct k as [|[a b] k]; [easy|]. cbn. intros H (H1 & H2 & H3). repeat split; [lia|exact H2|exact H3]. Qed.
Lemma parted_ok low k : parted low k -> ranges_ok k.
Proof. revert low. induction k as [|[a b] k IH]; intros low H; [constructor|]. destruct H as (H1 & H2 & H3). constructor; [exact H2|]. eapply IH, H3. Qed.
Lemma parted_join k : ranges_ok k -> forall x, fst x <= snd x -> sorted (x :: k) -> parted (fst x) (join_ranges x k).
Proof.
  induction 1 as [|y k Hy Hk IH]; intros [a b] Hx [Hs1 Hs2]; cbn [join_ranges fst snd] in *; [cbn; lia|].
  inversion_clear Hs1 as [|? ? Hxy Hxk]. destruct (N.leb_spec (fst y) (b + 1)) as [L|L].
  - apply (IH (a, N.max b (snd y))); cbn [fst snd]; [lia|]. split; [exact Hxk|apply Hs2].
  - cbn [parted]. repeat split; [lia|exact Hx|]. eapply parted_weaken; [|apply IH; [exact Hy|exact Hs2]]. lia.
Qed.
Lemma parted_canonical k : ranges_ok k -> parted 0 (canonical k).
Proof.
  intros Hk. unfold canonical. pose proof (sorted_sort k) as Hs. apply ok_sort in Hk. destruct (sort_ranges k) as [|x k']; [exact I|].
  inversion_clear Hk. eapply parted_weaken; [|now apply parted_join]. lia.
Qed.
Lemma parted_gaps k : ranges_ok k -> forall low, parted low (gaps low k).
Proof.
  induction 1 as [|[a b] k Hx Hk IH]; intros low; cbn [gaps fst snd] in *.
  - destruct (N.leb_spec low char_max); cbn; [lia|exact I].
  - specialize (IH (N.max low (next_char b))).
    assert (Hb : b + 1 <= next_char b) by (unfold next_char; destruct (N.eqb_spec b 55295); lia).
    destruct (N.ltb_spec low a); cbn [andb app]; [|eapply parted_weaken; [|exact IH]; lia].
    destruct (N.leb_spec low (previous_char a)) as [L|L]; cbn [app]; [|eapply parted_weaken; [|exact IH]; lia].
    cbn [parted]. repeat split; [lia|exact L|]. eapply parted_weaken; [|exact IH].
    assert (previous_char a + 1 <= a) by (unfold previous_char; destruct (N.eqb_spec a 57344); lia). lia.
Qed.
(** What a class is printed as. *)
Definition split_range (x : N * N) : ranges :=
  let '(a, b) := x in if a =? b then [(a, a)] else if a + 1 =? b then [(a, a); (b, b)] else [(a, b)].
Lemma print_split k digits spaces words : flat_map (item_ranges digits spaces words) (flat_map print_items k) = flat_map split_range k.
Proof.
  induction k as [|[a b] k IH]; [reflexivity|]. cbn [flat_map]. rewrite flat_map_app, IH. f_equal. cbn [print_items split_range].
  destruct (a =? b); [reflexivity|]. destruct (a + 1 =? b); reflexivity.
Qed.
Lemma split_sorted k : forall low, parted low k -> sort_ranges (flat_map split_range k) = flat_map split_range k /\
  match flat_map split_range k with [] => True | y :: _ => low <= fst y end.
Proof.
  induction k as [|[a b] k IH]; intros low; [easy|]. intros (H1 & H2 & H3). cbn [flat_map]. destruct (IH _ H3) as [Es Hf].
  assert (Hins : forall x, fst x < b + 2 -> insert_range x (flat_map split_range k) = x :: flat_map split_range k).
  { intros x Hx. destruct (flat_map split_range k) as [|y l]; [reflexivity|]. cbn [insert_range]. destruct (N.ltb_spec (fst x) (fst y)); [reflexivity|lia]. }
  cbn [split_range]. destruct (N.eqb_spec a b) as [->|Hne].
  - cbn [app sort_ranges fold_right]. unfold sort_ranges in Es. rewrite Es, Hins by (cbn; lia). split; [reflexivity|exact H1].
  - destruct (N.eqb_spec (a + 1) b) as [<-|Hne'].
    + cbn [app sort_ranges fold_right]. unfold sort_ranges in Es. rewrite Es, Hins by (cbn; lia). cbn [insert_range fst snd].
      destruct (N.ltb_spec a (a + 1)); [|lia]. split; [reflexivity|exact H1].
    + cbn [app sort_ranges fold_right]. unfold sort_ranges in Es. rewrite Es, Hins by (cbn; lia). split; [reflexivity|exact H1].
Qed.
Lemma split_joined k : forall x, parted (snd x + 2) k -> join_ranges x (flat_map split_range k) = x :: k.
Proof.
  induction k as [|[a b] k IH]; intros x; [reflexivity|]. intros (H1 & H2 & H3). cbn [flat_map split_range].
  destruct (N.eqb_spec a b) as [->|Hne].
  - cbn [app join_ranges fst]. destruct (N.leb_spec b (snd x + 1)); [lia|]. now rewrite IH.
  - destruct (N.eqb_spec (a + 1) b) as [<-|Hne'].
    + cbn [app join_ranges fst snd]. destruct (N.leb_spec a (snd x + 1)); [lia|]. destruct (N.leb_spec (a + 1) (a + 1)); [|lia].
      replace (N.max a (a + 1)) with (a + 1) by lia. now rewrite IH.
    + cbn [app join_ranges fst]. destruct (N.leb_spec a (snd x + 1)); [lia|]. now rewrite IH.
Qed.
Lemma canonical_split low k : parted low k -> canonical (flat_map split_range k) = k.
Proof.
  intros H. unfold canonical. rewrite (proj1 (split_sorted k low H)). destruct k as [|[a b] k]; [reflexivity|]. destruct H as (H1 & H2 & H3).
  cbn [flat_map split_range]. destruct (N.eqb_spec a b) as [->|Hne]; [cbn [app]; now apply split_joined|].
  destruct (N.eqb_spec (a + 1) b) as [<-|Hne']; [|cbn [app]; now apply split_joined].
  cbn [app join_ranges fst snd]. destruct (N.leb_spec (a + 1) (a + 1)); [|lia]. replace (N.max a (a + 1)) with (a + 1) by lia. now apply split_joined.
Qed.

(** ** The normal form *)
Definition atom (h : hir) : Prop := match h with HEmpty | HCat _ => False | _ => True end.
Fixpoint spaced (l : list hir) : Prop :=
  match l with [] => True | h :: l' => match h, l' with HLit _, HLit _ :: _ => False | _, _ => True end /\ spaced l' end.
Definition not_alt (h : hir) : Prop := match h with HAlt _ => False | _ => True end.
Definition normal_alt (l : list hir) : Prop :=
  (2 <= List.length l)%nat /\ Forall not_alt l /\ all_some as_char l = None /\ all_some as_class l = None /\
  forall c cs, all_some as_concat l = Some (c :: cs) -> fold_left common cs c = [].
Fixpoint normal (h : hir) : Prop :=
  match h with
  | HEmpty | HLook _ => True
  | HLit t => t <> []
  | HClass k => parted 0 k /\ h_class k = HClass k
  | HRep a b g h => (rep_ok a b /\ h_repetition a b g h = HRep a b g h) /\ normal h
  | HCap _ n h => name_ok n /\ normal h
  | HCat l => ((2 <= List.length l)%nat /\ Forall atom l /\ spaced l) /\ (fix all l := match l with [] => True | h :: l => normal h /\ all l end) l
  | HAlt l => normal_alt l /\ (fix all l := match l with [] => True | h :: l => normal h /\ all l end) l
  end.
Lemma normal_cat l : normal (HCat l) <-> ((2 <= List.length l)%nat /\ Forall atom l /\ spaced l) /\ Forall normal l.
Proof.
  cbn [normal]. apply and_iff_compat_l. induction l as [|h l IH]; [easy|]. rewrite Forall_cons_iff, IH. reflexivity.
Qed.
Lemma normal_of_alt l : normal (HAlt l) <-> normal_alt l /\ Forall normal l.
Proof. cbn [normal]. apply and_iff_compat_l. induction l as [|h l IH]; [easy|]. rewrite Forall_cons_iff, IH. reflexivity. Qed.
Lemma normal_class low k : parted low k -> normal (h_class k).
Proof.
  intros H. apply (parted_weaken low 0) in H; [|lia]. assert (E : h_class k = HClass k \/ exists c, h_class k = HLit [c]).
  { unfold h_class. destruct k as [|[a b] [|y k]]; auto. destruct (a =? b); [|auto]. right. now exists a. }
  destruct E as [E|[c ->]]; [rewrite E; now split|easy].
Qed.
Lemma normal_repetition min max g h : rep_ok min max -> normal h -> normal (h_repetition min max g h).
Proof.
  intros Hr Hh. destruct (repetition_cases min max g h Hr) as [-> |[-> |(a & b & Ha & -> & Hs)]]; [exact I|exact Hh|]. exact (conj (conj Ha Hs) Hh).
Qed.
Lemma normal_literal t : normal (h_literal t).
Proof. now destruct t. Qed.
Lemma flatten_normal l : Forall normal l -> Forall normal (flatten_cat l) /\ Forall atom (flatten_cat l).
Proof.
  induction 1 as [|h l Hh Hl [IH1 IH2]]; [split; constructor|]. unfold flatten_cat in *. cbn [flat_map]. rewrite !Forall_app.
  assert (Hone : atom h -> (Forall normal [h] /\ Forall normal (flatten_cat l)) /\ Forall atom [h] /\ Forall atom (flatten_cat l)) by auto.
  destruct h as [| | | | | |l'|]; try exact (Hone I); [auto|].
  apply normal_cat in Hh as [(_ & Ha & _) Hn]. auto.
Qed.
Lemma join_normal l : Forall normal l -> Forall atom l -> forall t,
  Forall normal (join_literals t l) /\ Forall atom (join_literals t l) /\ spaced (join_literals t l) /\
  (t = [] -> match join_literals t l, l with HLit _ :: _, HLit _ :: _ => True | HLit _ :: _, _ => False | _, _ => True end).
Proof.
  assert (Hf : forall t, Forall normal (flush t) /\ Forall atom (flush t)) by (intros [|c t]; split; repeat constructor; easy).
  intros Hn Ha. induction Hn as [|h l Hh Hl IH]; intros t; cbn [join_literals].
  - repeat split; [apply Hf|apply Hf|now destruct t|intros ->; exact I].
  - inversion_clear Ha as [|? ? Hat Ha']. specialize (IH Ha').
    assert (Hother : (match h with HLit _ => False | _ => True end) ->
      Forall normal (flush t ++ h :: join_literals [] l) /\ Forall atom (flush t ++ h :: join_literals [] l) /\
      spaced (flush t ++ h :: join_literals [] l) /\
      (t = [] -> match flush t ++ h :: join_literals [] l, h :: l with HLit _ :: _, HLit _ :: _ => True | HLit _ :: _, _ => False | _, _ => True end)).
    { intros Hno. destruct (IH []) as (I1 & I2 & I3 & _). rewrite !Forall_app. repeat split; try apply Hf; try (constructor; assumption).
      - destruct t; cbn [flush app spaced]; destruct h; easy.
      - intros ->. cbn [flush app]. now destruct h. }
    destruct h; try (now apply Hother). destruct (IH (t ++ t0)) as (I1 & I2 & I3 & _). repeat split; try assumption.
    intros ->. cbn [app]. cbn in Hh. destruct t0 as [|c t0]; [easy|]. clear. destruct (join_literals (c :: t0) l) as [|[] m]; exact I.
Qed.
Lemma normal_concat l : Forall normal l -> normal (h_concat l).
Proof.
  intros H. apply flatten_normal in H as [H1 H2]. destruct (join_normal _ H1 H2 []) as (H3 & H4 & H5 & _). unfold h_concat.
  destruct (join_literals [] (flatten_cat l)) as [|h [|h' l']]; [exact I|now inversion_clear H3|]. apply normal_cat.
  split; [split; [cbn; lia|now split]|assumption].
Qed.
(** A normal concatenation is not changed. *)
Lemma flatten_atoms l : Forall atom l -> flatten_cat l = l.
Proof. induction 1 as [|h l Hh Hl IH]; [reflexivity|]. unfold flatten_cat in *. cbn [flat_map]. rewrite IH. now destruct h. Qed.
Lemma join_spaced l : Forall normal l -> spaced l -> join_literals [] l = l /\ forall t, t <> [] -> match l with HLit _ :: _ => True | _ => join_literals t l = HLit t :: l end.
Proof.
  assert (Hflush : forall t, t <> [] -> flush t = [HLit t]) by (intros [|c t]; easy).
  induction 1 as [|h l Hh Hl IH]; intros Hs; [split; [reflexivity|intros t Ht; cbn; now apply Hflush]|].
  destruct Hs as [Hs1 Hs2]. destruct (IH Hs2) as [I1 I2].
  assert (Hother : (match h with HLit _ => False | _ => True end) -> forall t, join_literals t (h :: l) = flush t ++ h :: l).
  { intros Hno t. destruct h; try easy; cbn [join_literals]; now rewrite I1. }
  destruct h; try (split; [now rewrite Hother|intros u Hu; rewrite Hother, Hflush by easy; reflexivity]).
  cbn in Hh. cbn [join_literals app]. split; [|easy]. specialize (I2 t Hh). destruct l as [|[] l]; try assumption; easy.
Qed.
Lemma concat_normal l : Forall normal l -> Forall atom l -> spaced l -> (2 <= List.length l)%nat -> h_concat l = HCat l.
Proof.
  intros H1 H2 H3 H4. unfold h_concat. rewrite flatten_atoms by exact H2. rewrite (proj1 (join_spaced l H1 H3)).
  destruct l as [|h [|h' l]]; cbn in H4; try lia. reflexivity.
Qed.

(** ** Alternations *)
Definition total (l : list hir) : nat := fold_right (fun h n => (hir_size h + n)%nat) 0%nat l.
Lemma total_cons h l : total (h :: l) = (hir_size h + total l)%nat.
Proof. reflexivity. Qed.
Lemma total_app l l' : total (l ++ l') = (total l + total l')%nat.
Proof. induction l as [|h l IH]; [reflexivity|]. cbn [app]. rewrite !total_cons, IH. lia. Qed.
Lemma size_some h : (1 <= hir_size h)%nat.
Proof. destruct h; cbn; lia. Qed.
Lemma total_flatten_alt l : (total (flatten_alt l) <= total l)%nat.
Proof.
  induction l as [|h l IH]; [reflexivity|]. unfold flatten_alt in *. cbn [flat_map]. rewrite total_app, total_cons.
  assert (total (match h with HAlt l' => l' | _ => [h] end) <= hir_size h)%nat; [|lia]. destruct h; rewrite ?total_cons; cbn [hir_size]; fold total; unfold total; cbn; lia.
Qed.
Lemma size_concat l : (hir_size (h_concat l) <= S (total l))%nat.
Proof.
  assert (H1 : (total (flatten_cat l) <= total l)%nat).
  { induction l as [|h l IH]; [reflexivity|]. unfold flatten_cat in *. cbn [flat_map]. rewrite total_app, total_cons.
    assert (total (match h with HCat l' => l' | HEmpty => [] | _ => [h] end) <= hir_size h)%nat; [|lia]. destruct h; unfold total; cbn; lia. }
  assert (H2 : forall m t, (total (join_literals t m) <= S (total m))%nat /\ (total (join_literals [] m) <= total m)%nat).
  { assert (Hf : forall t, (total (flush t) <= 1)%nat) by (intros [|c t]; cbn; lia).
    induction m as [|h m IH]; intros t; [split; [specialize (Hf t); cbn [join_literals]; lia|reflexivity]|].
    assert (Ho : forall t, (total (flush t ++ h :: join_literals [] m) <= total (flush t) + total (h :: m))%nat).
    { intros t'. rewrite total_app, !total_cons. destruct (IH []) as [_ I2]. lia. }
    destruct (IH t) as [I1 I2].
    assert (Hd : (total (flush t ++ h :: join_literals [] m) <= S (total (h :: m)))%nat /\ (total (flush [] ++ h :: join_literals [] m) <= total (h :: m))%nat).
    { split; [specialize (Ho t); specialize (Hf t); lia|apply (Ho [])]. }
    destruct h; try exact Hd. cbn [join_literals app]. destruct (IH (t ++ t0)) as [I3 _], (IH t0) as [I4 _]. rewrite !total_cons. cbn [hir_size]. split; lia. }
  unfold h_concat. pose proof (proj2 (H2 (flatten_cat l) [])) as H3. destruct (join_literals [] (flatten_cat l)) as [|h [|h' m]].
  - cbn. lia.
  - rewrite total_cons in H3. lia.
  - change (hir_size (HCat (h :: h' :: m))) with (S (total (h :: h' :: m))). lia.
Qed.
Lemma flatten_alt_normal l : Forall normal l -> Forall normal (flatten_alt l) /\ Forall not_alt (flatten_alt l).
Proof.
  induction 1 as [|h l Hh Hl [IH1 IH2]]; [split; constructor|]. unfold flatten_alt in *. cbn [flat_map]. rewrite !Forall_app.
  assert (Hone : not_alt h -> (Forall normal [h] /\ Forall normal (flatten_alt l)) /\ Forall not_alt [h] /\ Forall not_alt (flatten_alt l)) by auto.
  destruct h as [| | | | | | |l']; try exact (Hone I). apply normal_of_alt in Hh as [(_ & Ha & _) Hn]. auto.
Qed.
Lemma flatten_not_alt l : Forall not_alt l -> flatten_alt l = l.
Proof. induction 1 as [|h l Hh Hl IH]; [reflexivity|]. unfold flatten_alt in *. cbn [flat_map]. rewrite IH. now destruct h. Qed.
Lemma chars_ok l ks : all_some as_char l = Some ks -> ranges_ok (List.concat ks).
Proof.
  revert ks. induction l as [|h l IH]; intros ks; cbn [all_some]; [intros [= <-]; constructor|].
  destruct h as [|[|c [|]]| | | | | |]; try discriminate. cbn [as_char]. destruct (all_some as_char l) as [m|]; [|discriminate]. intros [= <-].
  cbn. constructor; [cbn; lia|]. now apply IH.
Qed.
Lemma classes_ok l ks : Forall normal l -> all_some as_class l = Some ks -> ranges_ok (List.concat ks).
Proof.
  intros Hl. revert ks. induction Hl as [|h l Hh Hl IH]; intros ks; cbn [all_some]; [intros [= <-]; constructor|].
  destruct h; try discriminate. cbn [as_class]. destruct (all_some as_class l) as [m|]; [|discriminate]. intros [= <-].
  cbn. apply Forall_app. split; [eapply parted_ok, Hh|now apply IH].
Qed.
Lemma skipn_total {A} n (l : list A) : exists r, l = r ++ skipn n l /\ List.length r = Nat.min n (List.length l).
Proof. exists (firstn n l). now rewrite firstn_skipn, firstn_length. Qed.
Lemma total_long l : (List.length l <= total l)%nat.
Proof. induction l as [|h l IH]; rewrite ?total_cons; cbn [List.length]; [lia|]. pose proof (size_some h). lia. Qed.
Lemma normal_alternation fuel : forall l, Forall normal l -> (total l <= fuel)%nat -> normal (h_alternation_ fuel l).
Proof.
  induction fuel as [|fuel IH]; intros l Hl Hf.
  - destruct l as [|h l]; [split; [exact I|reflexivity]|]. pose proof (size_some h). rewrite total_cons in Hf. lia.
  - pose proof (total_flatten_alt l) as Ht. destruct (flatten_alt_normal l Hl) as [Hn Ha]. cbn [h_alternation_].
    destruct (flatten_alt l) as [|h1 [|h2 l']]; [split; [exact I|reflexivity]|now inversion_clear Hn|].
    set (m := h1 :: h2 :: l') in *. assert (Hm : (2 <= List.length m)%nat) by (cbn; lia). clearbody m. clear h1 h2 l'.
    destruct (all_some as_char m) as [ks|] eqn:E1; [eapply normal_class, parted_canonical, chars_ok, E1|].
    destruct (all_some as_class m) as [ks|] eqn:E2; [eapply normal_class, parted_canonical, classes_ok; [exact Hn|exact E2]|].
    assert (Halt : (forall c cs, all_some as_concat m = Some (c :: cs) -> fold_left common cs c = []) -> normal (HAlt m)).
    { intros H. apply normal_of_alt. split; [|exact Hn]. now repeat split. }
    destruct (all_some as_concat m) as [[|c cs]|] eqn:E3; [apply Halt; discriminate| |apply Halt; discriminate].
    pose proof (common_all cs c) as Hp. destruct (fold_left common cs c) as [|p0 p'] eqn:E4; [apply Halt; intros c' cs' [= <- <-]; exact E4|].
    set (p := p0 :: p') in *. assert (Hp0 : (1 <= List.length p)%nat) by (cbn; lia). clearbody p. clear p0 p' E4 Halt.
    apply all_some_concat in E3. subst m. clear E1 E2 Ha Hm.
    assert (Hcs : Forall (Forall normal) (c :: cs)).
    { apply Forall_forall. intros x Hx. rewrite Forall_map in Hn. rewrite Forall_forall in Hn. specialize (Hn x Hx). now apply normal_cat in Hn as [_ Hn]. }
    apply normal_concat. apply Forall_app. split.
    + inversion_clear Hp as [|? ? [r Hr] _]. inversion_clear Hcs as [|? ? Hc _]. rewrite Hr in Hc. now apply Forall_app in Hc.
    + constructor; [|constructor]. apply (IH (map (fun x => h_concat (skipn (List.length p) x)) (c :: cs))).
      * apply Forall_map. eapply Forall_impl; [|exact Hcs]. intros x Hx. apply normal_concat. rewrite <- (firstn_skipn (List.length p)) in Hx. now apply Forall_app in Hx.
      * assert (H : forall xs, Forall (fun x => exists r, x = p ++ r) xs -> (total (map (fun x => h_concat (skipn (List.length p) x)) xs) + List.length xs <= total (map HCat xs))%nat).
        { clear - Hp0. induction 1 as [|x xs [r ->] Hxs IH]; [reflexivity|]. cbn [map List.length]. rewrite !total_cons.
          rewrite skipn_app, skipn_all, Nat.sub_diag. cbn [app skipn]. pose proof (size_concat r). pose proof (total_long p).
          change (hir_size (HCat (p ++ r))) with (S (total (p ++ r))). rewrite total_app. lia. }
        specialize (H _ Hp). cbn [List.length] in H. lia.
Qed.
Lemma alternation_normal fuel l : normal_alt l -> h_alternation_ fuel l = HAlt l.
Proof.
  intros (H1 & H2 & H3 & H4 & H5). destruct fuel; cbn [h_alternation_]; rewrite flatten_not_alt by exact H2;
    (destruct l as [|h1 [|h2 l]]; [cbn in H1; lia|cbn in H1; lia|]); rewrite H3, H4; destruct (all_some as_concat _) as [[|c cs]|]; try reflexivity.
  now rewrite (H5 c cs eq_refl).
Qed.
Lemma normal_join l : Forall normal l -> normal (join_alts l).
Proof.
  intros H. unfold join_alts. destruct l as [|h1 [|h2 l]]; [split; [exact I|reflexivity]|now inversion_clear H|]. apply normal_alternation; [exact H|].
  change (hir_size (HAlt (h1 :: h2 :: l))) with (S (total (h1 :: h2 :: l))). lia.
Qed.

Section Translate.
  Context (digits spaces words : ranges) (Htab : tables_ok digits spaces words).
  Notation branches := (branches digits spaces words).
  Lemma parted_class k : class_ok k -> parted 0 (class_ranges digits spaces words k).
  Proof.
    destruct k as [neg l]. unfold class_ok, class_ranges. cbn [cl_items cl_negated]. intros Hl.
    assert (Hi : ranges_ok (flat_map (item_ranges digits spaces words) l)).
    { induction Hl as [|i l Hi Hl IH]; [constructor|]. eapply item_ranges_spec in Hi as [H1 _]; [|exact Htab]. now apply Forall_app. }
    destruct neg; [apply parted_gaps, ok_canonical, Hi|now apply parted_canonical].
  Qed.
  Lemma normal_branches r : re_ok r -> forall i, Forall normal (fst (branches r i)).
  Proof.
    assert (Hone : forall h, normal h -> Forall normal [h]) by (intros; now constructor).
    induction r as [|c| |k|l|min max g r IH|n r IH|a IHa b IHb|a IHa b IHb]; intros Hok i; cbn [Hir.branches].
    - now apply Hone.
    - now apply Hone.
    - apply Hone. split; [|reflexivity]. cbv [parted char_max]. lia.
    - apply Hone. eapply normal_class, parted_class, Hok.
    - now apply Hone.
    - destruct Hok as [Hr Hok]. specialize (IH Hok i). destruct (branches r i) as [l j]. apply Hone, normal_repetition; [exact Hr|now apply normal_join].
    - destruct Hok as [Hn Hok]. specialize (IH Hok (i + 1)). destruct (branches r (i + 1)) as [l j]. apply Hone. split; [exact Hn|now apply normal_join].
    - destruct Hok as [Ha Hb]. specialize (IHa Ha i). destruct (branches a i) as [l j]. specialize (IHb Hb j). destruct (branches b j) as [m k].
      apply Hone, normal_concat. constructor; [now apply normal_join|]. apply Hone. now apply normal_join.
    - destruct Hok as [Ha Hb]. specialize (IHa Ha i). destruct (branches a i) as [l j]. specialize (IHb Hb j). destruct (branches b j) as [m k].
      constructor; [now apply normal_join|exact IHb].
  Qed.
  Lemma normal_translate r : re_ok r -> normal (translate digits spaces words r).
  Proof. intros H. apply normal_join, normal_branches, H. Qed.
End Translate.
