(** Classes, alternations, and the translation to [Hir]: the meaning is kept. *)
From Coq Require Import PeanoNat.
From Verif Require Export ProofHir.

(** ** Sets of ranges *)
Definition ranges_ok (k : ranges) : Prop := Forall (fun x => fst x <= snd x) k.
Lemma in_app k k' c : in_ranges (k ++ k') c = in_ranges k c || in_ranges k' c.
Proof. apply existsb_app. Qed.
Lemma in_insert x k c : in_ranges (insert_range x k) c = in_ranges (x :: k) c.
Proof.
  induction k as [|y k IH]; [reflexivity|]. cbn [insert_range]. destruct (_ || _); [reflexivity|]. cbn [in_ranges existsb] in *.
  unfold in_ranges in *. rewrite IH. rewrite !orb_assoc. f_equal. apply orb_comm.
Qed.
Lemma in_sort k c : in_ranges (sort_ranges k) c = in_ranges k c.
Proof. induction k as [|x k IH]; [reflexivity|]. cbn [sort_ranges fold_right]. rewrite in_insert. cbn. now f_equal. Qed.
Fixpoint sorted (k : ranges) : Prop :=
  match k with [] => True | x :: k' => Forall (fun y => fst x <= fst y) k' /\ sorted k' end.
Lemma forall_insert (P : N * N -> Prop) x k : P x -> Forall P k -> Forall P (insert_range x k).
Proof. intros Hx. induction 1 as [|y k Hy Hk IH]; cbn [insert_range]; [auto|]. destruct (_ || _); auto. Qed.
Lemma sorted_insert x k : sorted k -> sorted (insert_range x k).
Proof.
  induction k as [|y k IH]; cbn [insert_range sorted]; [intros; now repeat constructor|]. intros [H1 H2].
  destruct (N.ltb_spec (fst x) (fst y)) as [L|L]; cbn [orb].
  - cbn [sorted]. split; [|auto]. constructor; [lia|]. eapply Forall_impl; [|exact H1]. cbn. intros; lia.
  - destruct (N.eqb_spec (fst x) (fst y)) as [E|E]; cbn [andb].
    + destruct (snd x <=? snd y).
      * cbn [sorted]. split; [|auto]. constructor; [lia|]. eapply Forall_impl; [|exact H1]. cbn. intros; lia.
      * cbn [sorted]. split; [|auto]. apply forall_insert; [lia|exact H1].
    + cbn [sorted]. split; [|auto]. apply forall_insert; [lia|exact H1].
Qed.
Lemma sorted_sort k : sorted (sort_ranges k).
Proof. induction k as [|x k IH]; [exact I|]. apply sorted_insert, IH. Qed.
Lemma ok_sort k : ranges_ok k -> ranges_ok (sort_ranges k).
Proof. induction 1 as [|x k Hx Hk IH]; [constructor|]. now apply forall_insert. Qed.
Lemma ok_join k : ranges_ok k -> forall x, fst x <= snd x -> ranges_ok (join_ranges x k).
Proof.
  induction 1 as [|y k Hy Hk IH]; intros x Hx; cbn [join_ranges]; [now repeat constructor|].
  destruct (_ <=? _); [apply IH; cbn; lia|]. constructor; [exact Hx|]. now apply IH.
Qed.
Lemma in_join k : ranges_ok k -> forall x c, fst x <= snd x -> sorted (x :: k) ->
  in_ranges (join_ranges x k) c = in_ranges (x :: k) c.
Proof.
  induction 1 as [|y k Hy Hk IH]; intros x c Hx [Hs1 Hs2]; cbn [join_ranges]; [reflexivity|].
  inversion_clear Hs1 as [|? ? Hxy Hxk]. destruct Hs2 as [Hs2 Hs3]. destruct (N.leb_spec (fst y) (snd x + 1)) as [L|L].
  - rewrite IH; [|cbn; lia|split; [exact Hxk|exact Hs3]]. cbn [in_ranges existsb fst snd]. rewrite orb_assoc. f_equal.
    destruct (N.leb_spec (fst x) c), (N.leb_spec c (N.max (snd x) (snd y))), (N.leb_spec c (snd x)), (N.leb_spec (fst y) c), (N.leb_spec c (snd y));
      cbn; try reflexivity; lia.
  - cbn [in_ranges existsb]. f_equal. unfold in_ranges in IH. rewrite IH; [reflexivity|exact Hy|now split].
Qed.
Lemma forall_join (a : N) k : Forall (fun y => a <= fst y) k -> forall x, a <= fst x -> Forall (fun y => a <= fst y) (join_ranges x k).
Proof.
  induction 1 as [|y k Hy Hk IH]; intros x Hx; cbn [join_ranges]; [now repeat constructor|].
  destruct (_ <=? _); [now apply IH|]. constructor; [exact Hx|]. now apply IH.
Qed.
Lemma sorted_join k : forall x, sorted (x :: k) -> sorted (join_ranges x k).
Proof.
  induction k as [|y k IH]; intros x [Hs1 Hs2]; cbn [join_ranges]; [now repeat constructor|].
  inversion_clear Hs1 as [|? ? Hxy Hxk]. destruct (_ <=? _).
  - apply IH. split; [exact Hxk|apply Hs2].
  - cbn [sorted]. split; [|now apply IH]. now apply forall_join.
Qed.
Lemma in_canonical k c : ranges_ok k -> in_ranges (canonical k) c = in_ranges k c.
Proof.
  intros Hk. rewrite <- (in_sort k). unfold canonical. pose proof (sorted_sort k) as Hs. apply ok_sort in Hk.
  destruct (sort_ranges k) as [|x k']; [reflexivity|]. inversion_clear Hk. now apply in_join.
Qed.
Lemma ok_canonical k : ranges_ok k -> ranges_ok (canonical k).
Proof. intros Hk. unfold canonical. apply ok_sort in Hk. destruct (sort_ranges k); [constructor|]. inversion_clear Hk. now apply ok_join. Qed.
Lemma sorted_canonical k : sorted (canonical k).
Proof. unfold canonical. pose proof (sorted_sort k). destruct (sort_ranges k); [exact I|]. now apply sorted_join. Qed.
Lemma sorted_not_in a k c : Forall (fun y => a <= fst y) k -> c < a -> in_ranges k c = false.
Proof.
  intros Hk Hc. unfold in_ranges. induction Hk as [|y k Hy Hk IH]; [reflexivity|]. cbn [existsb]. rewrite IH, orb_false_r.
  destruct (N.leb_spec (fst y) c); [lia|reflexivity].
Qed.
Lemma in_gaps k : forall low c, scalar c -> sorted k -> in_ranges (gaps low k) c = (low <=? c) && negb (in_ranges k c).
Proof.
  induction k as [|[a b] k IH]; intros low c Hc Hs.
  - destruct Hc as [Hc _]. cbn [gaps]. destruct (N.leb_spec low char_max); cbn [in_ranges existsb fst snd negb].
    + rewrite orb_false_r, andb_true_r. destruct (N.leb_spec c char_max); [now rewrite andb_true_r|lia].
    + destruct (N.leb_spec low c); [lia|reflexivity].
  - destruct Hs as [Hs1 Hs2]. cbn [fst] in Hs1. cbn [gaps]. rewrite in_app, IH by assumption.
    change (in_ranges ((a, b) :: k) c) with ((a <=? c) && (c <=? b) || in_ranges k c).
    match goal with |- ?x || _ = _ => assert (E1 : x = (low <=? c) && (c <? a)) end.
    { unfold scalar, previous_char in *. destruct (N.eqb_spec a 57344) as [->|];
        match goal with |- context [low <=? ?x] => destruct (N.leb_spec low x) end;
        match goal with |- context [low <? ?x] => destruct (N.ltb_spec low x) end; cbn [andb in_ranges existsb fst snd]; rewrite ?orb_false_r;
        repeat match goal with
          | H : (_ <? _) = true |- _ => apply N.ltb_lt in H
          | H : (_ <? _) = false |- _ => apply N.ltb_ge in H
          | |- context [?x <=? ?y] => destruct (N.leb_spec x y)
          | |- context [?x <? ?y] => destruct (N.ltb_spec x y)
          end; cbn; try reflexivity; lia. }
    match goal with |- _ || (?x && _) = _ => assert (E2 : x = (low <=? c) && (b <? c)) end.
    { unfold scalar, next_char in *. destruct (N.eqb_spec b 55295) as [->|];
        repeat match goal with
          | |- context [?x <=? ?y] => destruct (N.leb_spec x y)
          | |- context [?x <? ?y] => destruct (N.ltb_spec x y)
          end; cbn; try reflexivity; lia. }
    rewrite E1, E2. destruct (low <=? c); cbn [andb]; [|reflexivity].
    destruct (N.ltb_spec c a) as [L|L]; cbn [orb].
    + rewrite (sorted_not_in a k c Hs1 L). destruct (N.leb_spec a c); [lia|reflexivity].
    + destruct (N.leb_spec a c); [|lia]. cbn [andb]. destruct (N.ltb_spec b c), (N.leb_spec c b); cbn; try reflexivity; lia.
Qed.
Lemma ok_gaps k : forall low, ranges_ok (gaps low k).
Proof.
  induction k as [|[a b] k IH]; intros low; cbn [gaps].
  - destruct (N.leb_spec low char_max); repeat constructor. assumption.
  - apply Forall_app. split; [|apply IH]. destruct (N.leb_spec low (previous_char a)); [|rewrite andb_false_r; constructor].
    destruct (low <? a); cbn [andb]; repeat constructor. assumption.
Qed.

(** ** The normal form *)
Fixpoint hir_ok (h : hir) : Prop :=
  match h with
  | HEmpty | HLit _ | HLook _ => True
  | HClass k => ranges_ok k
  | HRep a b g h => (rep_ok a b /\ h_repetition a b g h = HRep a b g h) /\ hir_ok h
  | HCap _ n h => name_ok n /\ hir_ok h
  | HCat l => (fix all l := match l with [] => True | h :: l => hir_ok h /\ all l end) l
  | HAlt l => l <> [] /\ (fix all l := match l with [] => True | h :: l => hir_ok h /\ all l end) l
  end.
Lemma ok_cat l : hir_ok (HCat l) <-> Forall hir_ok l.
Proof. cbn. induction l as [|h l IH]; [easy|]. rewrite Forall_cons_iff, IH. reflexivity. Qed.
Lemma ok_alt l : hir_ok (HAlt l) <-> l <> [] /\ Forall hir_ok l.
Proof. rewrite <- ok_cat. reflexivity. Qed.
Lemma ok_h_class k : ranges_ok k -> hir_ok (h_class k).
Proof. intros H. unfold h_class. destruct k as [|[a b] [|y k]]; try exact H. destruct (a =? b); [exact I|exact H]. Qed.
Lemma repetition_cases min max g h : rep_ok min max ->
  h_repetition min max g h = HEmpty \/ h_repetition min max g h = h \/
  exists a b, rep_ok a b /\ h_repetition min max g h = HRep a b g h /\ h_repetition a b g h = HRep a b g h.
Proof.
  intros Hr. unfold h_repetition.
  assert (Hrest : forall min max, rep_ok min max ->
    (if only_empty h then (N.min min 1, match max with Some n => Some (N.min n 1) | None => Some 1 end) else (min, max)) = (min, max) ->
    (if (min =? 0) && opt_eqb N.eqb max (Some 0) then HEmpty else if (min =? 1) && opt_eqb N.eqb max (Some 1) then h else HRep min max g h) = HEmpty \/
    (if (min =? 0) && opt_eqb N.eqb max (Some 0) then HEmpty else if (min =? 1) && opt_eqb N.eqb max (Some 1) then h else HRep min max g h) = h \/
    exists a b, rep_ok a b /\
      (if (min =? 0) && opt_eqb N.eqb max (Some 0) then HEmpty else if (min =? 1) && opt_eqb N.eqb max (Some 1) then h else HRep min max g h) = HRep a b g h /\
      (let '(min, max) := if only_empty h then (N.min a 1, match b with Some n => Some (N.min n 1) | None => Some 1 end) else (a, b) in
       if (min =? 0) && opt_eqb N.eqb max (Some 0) then HEmpty else if (min =? 1) && opt_eqb N.eqb max (Some 1) then h else HRep min max g h) = HRep a b g h).
  { clear. intros min max Hr Hs. destruct ((min =? 0) && _) eqn:E1; [now left|]. destruct ((min =? 1) && _) eqn:E2; [right; now left|].
    right. right. exists min, max. rewrite Hs, E1, E2. auto. }
  destruct (only_empty h); [|now apply Hrest].
  apply Hrest.
  - revert Hr. cbv beta iota delta [rep_ok u32_max]. destruct max; lia.
  - f_equal; [lia|]. destruct max; f_equal; lia.
Qed.
Lemma ok_repetition min max g h : rep_ok min max -> hir_ok h -> hir_ok (h_repetition min max g h).
Proof.
  intros Hr Hh. destruct (repetition_cases min max g h Hr) as [-> |[-> |(a & b & Ha & -> & Hs)]]; [exact I|exact Hh|]. exact (conj (conj Ha Hs) Hh).
Qed.
Lemma ok_flatten_cat l : Forall hir_ok l -> Forall hir_ok (flatten_cat l).
Proof.
  induction 1 as [|h l Hh Hl IH]; [constructor|]. unfold flatten_cat in *. cbn [flat_map]. apply Forall_app. split; [|exact IH].
  destruct h; auto. now apply ok_cat.
Qed.
Lemma ok_join_literals l : Forall hir_ok l -> forall t, Forall hir_ok (join_literals t l).
Proof.
  assert (Hf : forall t, Forall hir_ok (flush t)) by (intros [|c t]; repeat constructor).
  induction 1 as [|h l Hh Hl IH]; intros t; cbn [join_literals]; [apply Hf|].
  destruct h; try (apply Forall_app; split; [apply Hf|]; constructor; [exact Hh|apply IH]). apply IH.
Qed.
Lemma ok_h_concat l : Forall hir_ok l -> hir_ok (h_concat l).
Proof.
  intros H. pose proof (ok_join_literals _ (ok_flatten_cat _ H) []) as Hj. unfold h_concat.
  destruct (join_literals [] (flatten_cat l)) as [|h [|h' l']]; [exact I|now inversion_clear Hj|]. now apply ok_cat.
Qed.
Lemma ok_flatten_alt l : Forall hir_ok l -> Forall hir_ok (flatten_alt l).
Proof.
  induction 1 as [|h l Hh Hl IH]; [constructor|]. unfold flatten_alt in *. cbn [flat_map]. apply Forall_app. split; [|exact IH].
  destruct h; auto. now apply ok_alt.
Qed.

(** ** Groups *)
Lemma caps_flatten_cat l : flat_map caps (flatten_cat l) = flat_map caps l.
Proof.
  induction l as [|h l IH]; [reflexivity|]. unfold flatten_cat in *. cbn [flat_map]. rewrite flat_map_app, IH. f_equal.
  destruct h; cbn; now rewrite ?app_nil_r.
Qed.
Lemma caps_flatten_alt l : flat_map caps (flatten_alt l) = flat_map caps l.
Proof.
  induction l as [|h l IH]; [reflexivity|]. unfold flatten_alt in *. cbn [flat_map]. rewrite flat_map_app, IH. f_equal.
  destruct h; cbn; now rewrite ?app_nil_r.
Qed.
Lemma caps_join l : forall t, flat_map caps (join_literals t l) = flat_map caps l.
Proof.
  assert (Hf : forall t, flat_map caps (flush t) = []) by (intros [|c t]; reflexivity).
  induction l as [|h l IH]; intros t; cbn [join_literals]; [apply Hf|].
  destruct h; try (rewrite flat_map_app, Hf; cbn [flat_map app]; now rewrite IH). cbn [flat_map caps app]. apply IH.
Qed.
Lemma caps_concat l : caps (h_concat l) = flat_map caps l.
Proof.
  rewrite <- (caps_flatten_cat l), <- (caps_join (flatten_cat l) []). unfold h_concat.
  destruct (join_literals [] (flatten_cat l)) as [|h [|h' l']]; cbn; now rewrite ?app_nil_r.
Qed.
Lemma caps_class k : caps (h_class k) = [].
Proof. unfold h_class. destruct k as [|[a b] [|y k]]; try reflexivity. destruct (a =? b); reflexivity. Qed.

(** ** Equality *)
Lemma list_eqb_eq {A} (eqb : A -> A -> bool) (He : forall x y, eqb x y = true -> x = y) a : forall b, list_eqb eqb a b = true -> a = b.
Proof. induction a as [|x a IH]; intros [|y b]; cbn; try easy. intros [H1 H2]%andb_prop. f_equal; auto. Qed.
Lemma opt_eqb_eq {A} (eqb : A -> A -> bool) (He : forall x y, eqb x y = true -> x = y) a b : opt_eqb eqb a b = true -> a = b.
Proof. destruct a, b; cbn; try easy. intros H. f_equal. auto. Qed.
Lemma hir_eqb_eq a : forall b, hir_eqb a b = true -> a = b.
Proof.
  assert (Hlist : forall l, Forall (fun a => forall b, hir_eqb a b = true -> a = b) l ->
    forall l', (fix all (l l' : list hir) : bool :=
         match l, l' with
         | [], [] => true
         | x :: l, y :: l' => hir_eqb x y && all l l'
         | _, _ => false
         end) l l' = true -> l = l').
  { induction 1 as [|x l Hx Hl IH]; intros [|y l']; try easy. intros [H1 H2]%andb_prop. f_equal; auto. }
  induction a as [|t|k|l|a b g h IH|i n h IH|l IH|l IH] using hir_ind'; intros [| | | | | | | ]; cbn [hir_eqb]; try easy.
  - intros H%str_eqb_eq. now subst.
  - intros H. f_equal. revert H. apply list_eqb_eq. intros [x y] [x' y'] [H1 H2]%andb_prop. cbn in *. apply N.eqb_eq in H1, H2. now subst.
  - destruct l, l0; easy.
  - intros [[[H1 H2]%andb_prop H3]%andb_prop H4]%andb_prop. apply N.eqb_eq in H1. apply Bool.eqb_prop in H3. apply IH in H4.
    apply opt_eqb_eq in H2; [now subst|]. intros x y. apply N.eqb_eq.
  - intros [[H1 H2]%andb_prop H4]%andb_prop. apply N.eqb_eq in H1. apply IH in H4.
    apply opt_eqb_eq in H2; [now subst|]. intros x y. apply str_eqb_eq.
  - intros H. f_equal. now apply Hlist.
  - intros H. f_equal. now apply Hlist.
Qed.
Lemma common_left a : forall b, exists r, a = common a b ++ r.
Proof.
  induction a as [|x a IH]; intros b; [now exists []|]. destruct b as [|y b]; [now exists (x :: a)|]. cbn [common].
  destruct (hir_eqb x y); [|now exists (x :: a)]. destruct (IH b) as [r Hr]. exists r. cbn. now f_equal.
Qed.
Lemma common_right a : forall b, exists r, b = common a b ++ r.
Proof.
  induction a as [|x a IH]; intros b; [now exists b|]. destruct b as [|y b]; [now exists []|]. cbn [common].
  destruct (hir_eqb x y) eqn:E; [|now exists (y :: b)]. apply hir_eqb_eq in E as ->. destruct (IH b) as [r Hr]. exists r. cbn. now f_equal.
Qed.
Lemma common_all cs : forall c, Forall (fun x => exists r, x = fold_left common cs c ++ r) (c :: cs).
Proof.
  induction cs as [|d cs IH]; intros c; cbn [fold_left]; [repeat constructor; exists []; now rewrite app_nil_r|].
  specialize (IH (common c d)). inversion_clear IH as [|? ? [r Hr] Hcs].
  destruct (common_left c d) as [r1 H1], (common_right c d) as [r2 H2].
  constructor; [|constructor; [|exact Hcs]].
  - exists (r ++ r1). rewrite app_assoc, <- Hr. exact H1.
  - exists (r ++ r2). rewrite app_assoc, <- Hr. exact H2.
Qed.
Lemma all_some_concat l cs : all_some as_concat l = Some cs -> l = map HCat cs.
Proof.
  revert cs. induction l as [|h l IH]; intros cs; cbn [all_some].
  - intros [= <-]. reflexivity.
  - destruct h as [| | | | | |l'|]; try discriminate. cbn [as_concat]. destruct (all_some as_concat l) as [m|]; [|discriminate].
    intros [= <-]. cbn. now rewrite (IH m).
Qed.
