(** How large the automaton of a regex is: of what [Regex::new] compiles, and of the regex of an expression. *)
From Verif Require Export ProofAutomaton3 ProofNormal ProofExpand3.
Require Import Lia PeanoNat.

(** ** The code of a regex *)
Definition rep_weight (min : N) (max : option N) (w : nat) : nat :=
  match max with
  | Some m => if m <? min then 1 else N.to_nat min * w + N.to_nat (m - min) * S w
  | None => match N.to_nat min with O => S (S w) | S j => S w + j * w end
  end.
Lemma rep_weight_mono min max w w' : (w <= w')%nat -> (rep_weight min max w <= rep_weight min max w')%nat.
Proof.
  intros H. unfold rep_weight. destruct max as [m|].
  - destruct (m <? min); [lia|]. apply Nat.add_le_mono; apply Nat.mul_le_mono; lia.
  - destruct (N.to_nat min) as [|j]; [lia|]. apply Nat.add_le_mono; [lia|]. apply Nat.mul_le_mono; lia.
Qed.
(** [b]: what an alternative costs. *)
Fixpoint weight (b : nat) (r : re) : nat :=
  match r with
  | REmpty => 0
  | RLit _ | RDot | RClass _ | RLook _ => 1
  | RRep min max _ r => rep_weight min max (weight b r)
  | RCap _ r => 2 + weight b r
  | RCat x y => weight b x + weight b y
  | RAlt x y => b + weight b x + weight b y
  end.
Section Code.
  Context (digit space word : char -> bool).
  Definition fits (body : compiler) (w : nat) : Prop := forall k n, (List.length (fst (body k n)) <= w)%nat.
  Lemma copies_fit body w j : fits body w -> fits (copies body j) (j * w).
  Proof.
    intros H. induction j as [|j IH]; intros k n; cbn [copies]; [cbn; lia|]. specialize (IH k n).
    destruct (copies body j k n) as [c e]. specialize (H e (n + List.length c)%nat). destruct (body e _) as [c' e']. cbn [fst] in *. rewrite app_length. lia.
  Qed.
  Lemma optional_fit body g w j : fits body w -> fits (optional_copies body g j) (j * S w).
  Proof.
    intros H. induction j as [|j IH]; intros k n; cbn [optional_copies]; [cbn; lia|]. specialize (IH k (S n)).
    destruct (optional_copies body g j k (S n)) as [c e]. specialize (H e (S n + List.length c)%nat). destruct (body e _) as [c' e']. cbn [fst List.length] in *. rewrite app_length. lia.
  Qed.
  Lemma loop_fit body g w : fits body w -> fits (loop body g) (S w).
  Proof. intros H k n. unfold loop. specialize (H n (S n)). destruct (body n (S n)). cbn [fst List.length] in *. lia. Qed.
  Lemma repetition_fit body some min max g w : fits body w -> fits (repetition body some min max g) (rep_weight min max w).
  Proof.
    intros H k n. unfold repetition, rep_weight. destruct max as [m|].
    - destruct (m <? min); [cbn; lia|]. pose proof (optional_fit body g w (N.to_nat (m - min)) H k n) as H1. destruct (optional_copies _ _ _ _ _) as [c e].
      pose proof (copies_fit body w (N.to_nat min) H e (n + List.length c)%nat) as H2. destruct (copies _ _ _ _) as [c' e']. cbn [fst] in *. rewrite app_length. lia.
    - destruct (N.to_nat min) as [|j].
      + destruct some.
        * pose proof (loop_fit body g w H k n). cbn [fst]. lia.
        * pose proof (loop_fit body g w H k (S n)). destruct (loop _ _ _ _). cbn [fst List.length] in *. lia.
      + pose proof (loop_fit body g w H k n). destruct (loop _ _ _ _) as [c e].
        pose proof (copies_fit body w j H e (n + List.length c)%nat) as H2. destruct (copies _ _ _ _) as [c' e']. cbn [fst] in *. rewrite app_length. lia.
  Qed.
  Lemma compile_fit r : forall g, fits (compile digit space word r g) (weight 1 r).
  Proof.
    induction r as [| | | | |min max greedy r IH|n r IH|a IHa b IHb|a IHa b IHb]; intros g k n'; cbn [compile weight]; try (cbn; lia).
    - now apply repetition_fit.
    - specialize (IH (S g) n' (S (S n'))). destruct (compile _ _ _ r _ _ _). cbn [fst List.length] in *. lia.
    - specialize (IHb (g + List.length (groups a))%nat k n'). destruct (compile _ _ _ b _ _ _) as [c e].
      specialize (IHa g e (n' + List.length c)%nat). destruct (compile _ _ _ a _ _ _) as [c' e']. cbn [fst] in *. rewrite app_length. lia.
    - specialize (IHa g k (S n')). destruct (compile _ _ _ a _ _ _) as [c e].
      specialize (IHb (g + List.length (groups a))%nat k (S n' + List.length c)%nat). destruct (compile _ _ _ b _ _ _) as [c' e']. cbn [fst List.length] in *. rewrite app_length. lia.
  Qed.
  Lemma program_fit r : (List.length (program digit space word r) <= 3 + weight 1 r)%nat.
  Proof. unfold program. cbn [List.length]. pose proof (compile_fit (RCap None r) 0%nat 0%nat 1%nat) as H. cbn [weight] in H. lia. Qed.
End Code.

(** ** Simplifying makes it no larger *)
Fixpoint hw (h : hir) : nat :=
  match h with
  | HEmpty => 0
  | HLit t => List.length t
  | HClass _ | HLook _ => 1
  | HRep min max _ h => rep_weight min max (hw h)
  | HCap _ _ h => 2 + hw h
  | HCat l => list_sum (map hw l)
  | HAlt l => (list_sum (map (fun h => (hw h + 3)%nat) l) - 3)%nat
  end.
Notation sum l := (list_sum (map hw l)).
Notation sum3 l := (list_sum (map (fun h => hw h + 3)%nat l)).
Lemma list_sum_app' a b : list_sum (a ++ b) = (list_sum a + list_sum b)%nat.
Proof. apply list_sum_app. Qed.
Lemma list_sum_cons a l : list_sum (a :: l) = (a + list_sum l)%nat.
Proof. reflexivity. Qed.
Lemma sum_app a b : sum (a ++ b) = (sum a + sum b)%nat.
Proof. now rewrite map_app, list_sum_app'. Qed.
Lemma sum3_app a b : sum3 (a ++ b) = (sum3 a + sum3 b)%nat.
Proof. now rewrite map_app, list_sum_app'. Qed.
Lemma sum_cons x l : sum (x :: l) = (hw x + sum l)%nat.
Proof. reflexivity. Qed.
Lemma sum3_cons x l : sum3 (x :: l) = (hw x + 3 + sum3 l)%nat.
Proof. reflexivity. Qed.
Lemma sum3_sum l : sum3 l = (sum l + 3 * List.length l)%nat.
Proof. induction l as [|x l IH]; [reflexivity|]. rewrite sum_cons, sum3_cons, IH. cbn [List.length]. lia. Qed.
Lemma hw_literal t : hw (h_literal t) = List.length t.
Proof. now destruct t. Qed.
Lemma hw_class k : hw (h_class k) = 1%nat.
Proof. unfold h_class. destruct k as [|[a b] [|x k]]; try reflexivity. now destruct (a =? b). Qed.
Lemma sum_flatten l : sum (flatten_cat l) = sum l.
Proof.
  induction l as [|h l IH]; [reflexivity|]. unfold flatten_cat in *. cbn [flat_map]. rewrite sum_app, sum_cons, IH.
  f_equal. destruct h; cbn; lia.
Qed.
Lemma sum_join l : forall t, sum (join_literals t l) = (List.length t + sum l)%nat.
Proof.
  assert (Hf : forall t, sum (flush t) = List.length t) by (intros [|c t]; cbn; lia).
  induction l as [|h l IH]; intros t; [cbn [join_literals]; rewrite Hf; cbn; lia|].
  assert (Hn : sum (flush t ++ h :: join_literals [] l) = (List.length t + sum (h :: l))%nat) by (rewrite sum_app, !sum_cons, Hf, IH; cbn; lia).
  destruct h; cbn [join_literals]; try exact Hn. rewrite IH, sum_cons, app_length. cbn [hw]. lia.
Qed.
Lemma hw_concat l : hw (h_concat l) = sum l.
Proof.
  unfold h_concat. rewrite <- (sum_flatten l). rewrite <- (Nat.add_0_l (sum (flatten_cat l))). change 0%nat with (List.length (@nil char)). rewrite <- sum_join.
  destruct (join_literals [] (flatten_cat l)) as [|h [|h' l']]; [reflexivity|cbn; lia|reflexivity].
Qed.
Lemma sum3_flatten l : Forall normal l -> (sum3 (flatten_alt l) <= sum3 l)%nat /\ (l <> [] -> flatten_alt l <> []).
Proof.
  intros Hl. split.
  - induction Hl as [|h l Hh Hl IH]; [cbn; lia|]. unfold flatten_alt in *. cbn [flat_map]. rewrite sum3_app, sum3_cons.
    destruct h as [| | | | | | |m]; cbn in *; lia.
  - intros Hn. destruct Hl as [|h l Hh Hl]; [easy|]. unfold flatten_alt. cbn [flat_map]. destruct h as [| | | | | | |[|x m]]; try easy.
    apply normal_of_alt in Hh as [[Hm _] _]. cbn in Hm. lia.
Qed.
Lemma sum3_one h l : In h l -> (hw h + 3 <= sum3 l)%nat.
Proof. induction l as [|x l IH]; [easy|]. rewrite sum3_cons. intros [-> |H]; [lia|]. specialize (IH H). lia. Qed.
Lemma hw_alternation fuel : forall l, Forall normal l -> l <> [] -> (hw (h_alternation_ fuel l) + 3 <= sum3 l)%nat.
Proof.
  assert (Halt : forall l, l <> [] -> (hw (HAlt l) + 3 <= sum3 l)%nat).
  { intros [|x l] H; [easy|]. cbn [hw]. rewrite sum3_cons. lia. }
  assert (Hone : forall l k, l <> [] -> (forall h, In h l -> hw h = 1%nat) -> (hw (h_class k) + 3 <= sum3 l)%nat).
  { intros [|x l] k H Hx; [easy|]. rewrite hw_class, sum3_cons, (Hx x (or_introl eq_refl)). lia. }
  assert (Hchars : forall l ks h, all_some as_char l = Some ks -> In h l -> hw h = 1%nat).
  { induction l as [|x l IH]; intros ks h; cbn [all_some]; [easy|]. destruct (as_char x) eqn:E1; [|discriminate].
    destruct (all_some as_char l) eqn:E2; [|discriminate]. intros _ [-> |H]; [|now eapply IH]. now destruct h as [|[|c [|]]| | | | | |]. }
  assert (Hclasses : forall l ks h, all_some as_class l = Some ks -> In h l -> hw h = 1%nat).
  { induction l as [|x l IH]; intros ks h; cbn [all_some]; [easy|]. destruct (as_class x) eqn:E1; [|discriminate].
    destruct (all_some as_class l) eqn:E2; [|discriminate]. intros _ [-> |H]; [|now eapply IH]. now destruct h. }
  induction fuel as [|fuel IH]; intros l Hl Hne; destruct (sum3_flatten l Hl) as [Hs Hf]; specialize (Hf Hne); (etransitivity; [|exact Hs]); clear Hs Hne;
    apply flatten_alt_normal in Hl as [Hl _]; cbn [h_alternation_]; revert Hl Hf; generalize (flatten_alt l); clear l; intros l Hl Hf;
    (destruct l as [|h1 [|h2 l]]; [easy|cbn; lia|]); revert Hl Hf; generalize (h1 :: h2 :: l); clear h1 h2 l; intros l Hl Hf;
    (destruct (all_some as_char l) as [ks|] eqn:E1; [apply Hone; [exact Hf|intros h; now apply (Hchars l ks)]|]);
    (destruct (all_some as_class l) as [ks|] eqn:E2; [apply Hone; [exact Hf|intros h; now apply (Hclasses l ks)]|]);
    (destruct (all_some as_concat l) as [cs|] eqn:E; [|now apply Halt]); apply all_some_concat in E as ->;
    (destruct cs as [|c cs]; [now apply Halt|]); [now apply Halt|].
  clear E1 E2. pose proof (common_all cs c) as Hp. destruct (fold_left common cs c) as [|p1 p']; [now apply Halt|]. revert Hp. generalize (p1 :: p'). clear p1 p'. intros p Hp.
  rewrite Forall_map in Hl. rewrite hw_concat, sum_app, sum_cons, Nat.add_0_r.
  assert (Hr : (hw (h_alternation_ fuel (map (fun x => h_concat (skipn (List.length p) x)) (c :: cs))) + 3 <=
                sum3 (map (fun x => h_concat (skipn (List.length p) x)) (c :: cs)))%nat).
  { apply IH; [|discriminate]. apply Forall_map. eapply Forall_impl; [|exact Hl]. cbv beta. intros x [_ Hx]%normal_cat. apply normal_concat.
    rewrite <- (firstn_skipn (List.length p) x), Forall_app in Hx. apply Hx. }
  cbv zeta. rewrite <- Nat.add_assoc. etransitivity; [apply Nat.add_le_mono_l; exact Hr|]. clear Hr IH.
  assert (Hall : forall ds, Forall (fun x => exists r, x = p ++ r) ds ->
    (List.length ds * sum p + sum3 (map (fun x => h_concat (skipn (List.length p) x)) ds) <= sum3 (map HCat ds))%nat).
  { induction 1 as [|x ds [r ->] Hds Hi]; [cbn; lia|]. cbn [map]. rewrite !list_sum_cons, hw_concat. cbn [hw List.length]. rewrite skipn_app, skipn_all, Nat.sub_diag, sum_app.
    change (skipn 0 r) with r. rewrite (sum_app p r). cbn [map list_sum fold_right]. lia. }
  specialize (Hall _ Hp). cbn [List.length] in Hall. lia.
Qed.
Lemma hw_join l : Forall normal l -> l <> [] -> (hw (join_alts l) + 3 <= sum3 l)%nat.
Proof.
  intros Hl Hn. unfold join_alts. destruct l as [|h1 [|h2 l]]; [easy|cbn; lia|]. now apply hw_alternation.
Qed.
Lemma rep_weight_some min max w : rep_ok min max -> min <> 0 -> (w <= rep_weight min max w)%nat.
Proof.
  intros [_ H] Hm. unfold rep_weight. destruct (N.to_nat min) as [|j] eqn:E; [lia|]. destruct max as [m|]; [|lia].
  destruct (N.ltb_spec m min); [lia|]. cbn [Nat.mul]. pose proof (Nat.le_0_l (j * w)). pose proof (Nat.le_0_l (N.to_nat (m - min) * S w)). lia.
Qed.
Lemma hw_repetition min max g h : rep_ok min max -> (hw (h_repetition min max g h) <= rep_weight min max (hw h))%nat.
Proof.
  intros Hr. unfold h_repetition.
  assert (Hrest : forall a b, (rep_weight a b (hw h) <= rep_weight min max (hw h))%nat ->
    (hw (if (a =? 0)%N && opt_eqb N.eqb b (Some 0%N) then HEmpty else if (a =? 1)%N && opt_eqb N.eqb b (Some 1%N) then h else HRep a b g h) <= rep_weight min max (hw h))%nat).
  { intros a b H. destruct ((a =? 0) && _); [cbn; lia|]. destruct ((a =? 1) && opt_eqb N.eqb b (Some 1%N)) eqn:E; [|exact H].
    apply andb_prop in E as [->%N.eqb_eq E]. destruct b as [b|]; [|discriminate]. apply N.eqb_eq in E as ->. cbn in H. lia. }
  destruct (only_empty h); [|apply Hrest; lia]. apply Hrest. destruct (N.eq_dec min 0) as [-> |Hm].
  - destruct max as [m|]; [|cbn; lia]. destruct (N.eq_dec m 0) as [-> |H]; [cbn; lia|]. replace (N.min m 1) with 1 by lia. cbn [rep_weight N.min].
    rewrite !N.sub_0_r. destruct (N.ltb_spec m 0); [lia|]. cbn [N.ltb N.compare]. replace (N.to_nat m) with (S (N.to_nat m - 1)) by lia. pose proof (Nat.le_0_l ((N.to_nat m - 1) * S (hw h))). cbn [Nat.mul]. change (N.to_nat 1) with 1%nat. change (N.to_nat 0) with 0%nat. change (1 <? N.min 0 1) with false. change (N.to_nat (N.min 0 1)) with 0%nat. cbn iota. lia.
  - replace (N.min min 1) with 1 by lia. destruct Hr as [Hr1 Hr2]. replace (match max with Some n => Some (N.min n 1) | None => Some 1 end) with (Some 1).
    + etransitivity; [|apply rep_weight_some; [now split|exact Hm]]. cbn. lia.
    + destruct max as [m|]; [|reflexivity]. f_equal. lia.
Qed.

Section Translated.
  Context (digits spaces words : ranges).
  Context (Htab : tables_ok digits spaces words).
  Lemma branches_fit r : re_ok r -> forall i, fst (branches digits spaces words r i) <> [] /\ (sum3 (fst (branches digits spaces words r i)) <= weight 3 r + 3)%nat.
  Proof.
    assert (Hjoin : forall r i, re_ok r -> fst (branches digits spaces words r i) <> [] /\ (sum3 (fst (branches digits spaces words r i)) <= weight 3 r + 3)%nat ->
      (hw (join_alts (fst (branches digits spaces words r i))) <= weight 3 r)%nat).
    { intros r0 i Hok [H1 H2]. pose proof (hw_join _ (normal_branches digits spaces words Htab r0 Hok i) H1). lia. }
    induction r as [|c| |k|l|min max g r IH|n r IH|a IHa b IHb|a IHa b IHb]; intros Hok i.
    1-5: split; [easy|]; cbn [branches fst]; rewrite sum3_cons, ?hw_class; cbn; lia.
    - destruct Hok as [Hr Hok]. specialize (Hjoin r i Hok (IH Hok i)). cbn [branches]. destruct (branches digits spaces words r i) as [l j]. cbn [fst weight] in *.
      split; [easy|]. rewrite sum3_cons. pose proof (hw_repetition min max g (join_alts l) Hr). pose proof (rep_weight_mono min max _ _ Hjoin). cbn [map list_sum fold_right]. lia.
    - destruct Hok as [_ Hok]. specialize (Hjoin r (i + 1) Hok (IH Hok (i + 1))). cbn [branches]. destruct (branches digits spaces words r (i + 1)) as [l j]. cbn [fst weight] in *.
      split; [easy|]. rewrite sum3_cons. cbn [hw map list_sum fold_right]. lia.
    - destruct Hok as [Ha Hb]. pose proof (Hjoin a i Ha (IHa Ha i)) as H1. cbn [branches]. destruct (branches digits spaces words a i) as [l j].
      pose proof (Hjoin b j Hb (IHb Hb j)) as H2. destruct (branches digits spaces words b j) as [m k]. cbn [fst weight] in *.
      split; [easy|]. rewrite sum3_cons, hw_concat, !sum_cons. cbn [map list_sum fold_right]. lia.
    - destruct Hok as [Ha Hb]. pose proof (Hjoin a i Ha (IHa Ha i)) as H1. cbn [branches]. destruct (branches digits spaces words a i) as [l j].
      pose proof (IHb Hb j) as H2. destruct (branches digits spaces words b j) as [m k]. cbn [fst weight] in *.
      split; [easy|]. rewrite sum3_cons. lia.
  Qed.
  Lemma weight_cat b l : weight b (mk_cat l) = list_sum (map (weight b) l).
  Proof.
    induction l as [|r [|r' l] IH]; [reflexivity|cbn; lia|]. change (mk_cat (r :: r' :: l)) with (RCat r (mk_cat (r' :: l))). cbn [weight map]. rewrite IH. reflexivity.
  Qed.
  Lemma weight_unhir h : normal h -> (weight 1 (unhir h) <= hw h)%nat.
  Proof.
    induction h as [|t|k|l|min max g h IH|i n h IH|l IH|l IH] using hir_ind'; intros Hh; cbn [unhir weight hw]; try lia.
    - rewrite weight_cat, map_map. clear. induction t as [|c t It]; [cbn; lia|]. cbn [map List.length weight] in *. rewrite list_sum_cons. lia.
    - apply rep_weight_mono, IH, Hh.
    - specialize (IH (proj2 Hh)). lia.
    - rewrite weight_cat. apply normal_cat in Hh as [_ Hh]. clear - IH Hh. induction IH as [|x l Hx Hl Hi]; [cbn; lia|]. inversion_clear Hh as [|? ? H1 H2].
      specialize (Hi H2). specialize (Hx H1). cbn [map] in *. rewrite !list_sum_cons. lia.
    - apply normal_of_alt in Hh as [[Hn _] Hh].
      assert (H : (weight 1 (ralt (map unhir l)) <= 1 + List.length l + sum l)%nat).
      { clear - IH Hh. induction IH as [|x l Hx Hl Hi]; [cbn; lia|]. inversion_clear Hh as [|? ? H1 H2]. specialize (Hi H2). specialize (Hx H1).
        cbn [map]. change (ralt (?a :: ?m)) with (RAlt a (ralt m)). cbn [weight List.length]. rewrite list_sum_cons. lia. }
      change (list_sum (map _ l)) with (sum3 l). rewrite sum3_sum. lia.
  Qed.
  Lemma compiled_weight r : re_ok r -> (weight 1 (compiled digits spaces words r) <= weight 3 r)%nat.
  Proof.
    intros Hok. unfold compiled. etransitivity; [apply weight_unhir, normal_translate; assumption|].
    destruct (branches_fit r Hok 1) as [H1 H2]. pose proof (hw_join _ (normal_branches digits spaces words Htab r Hok 1) H1). unfold translate. lia.
  Qed.
End Translated.

(** ** The regex of an expression *)
Lemma list_sum_flat {A} (f : A -> list nat) l : list_sum (flat_map f l) = list_sum (map (fun x => list_sum (f x)) l).
Proof. induction l as [|x l IH]; [reflexivity|]. cbn [flat_map map]. rewrite list_sum_app, list_sum_cons, IH. reflexivity. Qed.
Lemma weight_text {I} (elements : I -> str) b i : (list_sum (map (weight b) (re_text elements i)) <= List.length (elements i))%nat.
Proof.
  unfold re_text. rewrite map_map. cbn [weight]. etransitivity; [|apply unescape_length]. induction (unescape (elements i)) as [|c t IH]; [cbn; lia|].
  cbn [map List.length]. rewrite list_sum_cons. lia.
Qed.
Lemma weight_optional {I} (elements : I -> str) b o : (weight b (re_optional elements o) <= List.length (elements (opt_input o)) + 2)%nat.
Proof.
  unfold re_optional. cbn [weight]. rewrite weight_cat. pose proof (weight_text elements b (opt_input o)) as H. revert H. generalize (list_sum (map (weight b) (re_text elements (opt_input o)))). intros w H. change (rep_weight 0 (Some 1) w) with (0 * w + 1 * S w)%nat. lia.
Qed.
Lemma weight_alternative b a : (list_sum (map (weight b) (re_alternative frag a)) <= 2 * List.length (src_alternative (map_alternative frag a)))%nat.
Proof.
  destruct a as [o|t]; cbn [re_alternative map_alternative src_alternative map_optional opt_input].
  - pose proof (weight_optional frag b o). cbn [map]. rewrite list_sum_cons, !app_length. change (List.length (s_ "(")) with 1%nat. change (List.length (s_ ")")) with 1%nat. change (list_sum []) with 0%nat. lia.
  - pose proof (weight_text frag b t). lia.
Qed.
Lemma weight_branch b x : (weight b (re_branch frag x) <= 2 * List.length (src_branch (map (map_alternative frag) x)))%nat.
Proof.
  unfold re_branch, src_branch. rewrite weight_cat. induction x as [|a x IH]; [cbn; lia|].
  cbn [flat_map map List.concat]. rewrite map_app, list_sum_app, app_length. pose proof (weight_alternative b a). lia.
Qed.
Lemma weight_mk_alt b l : l <> [] -> (weight b (mk_alt l) <= list_sum (map (weight b) l) + (List.length l - 1) * b)%nat.
Proof.
  induction l as [|r [|r' l] IH]; intros H; [easy|cbn; lia|]. change (mk_alt (r :: r' :: l)) with (RAlt r (mk_alt (r' :: l))).
  cbn [weight]. specialize (IH ltac:(easy)). cbn [map List.length] in *. rewrite !list_sum_cons in *. cbn in *. lia.
Qed.
Lemma weight_alternation a : (2 <= List.length a)%nat ->
  (weight 3 (re_alternation frag a) <= 3 * List.length (src_single (ExAlternation (map_alternation frag a))))%nat.
Proof.
  intros Ha. unfold re_alternation, map_alternation. cbn [src_single]. rewrite map_map.
  assert (Hne : map (re_branch frag) a <> []) by (destruct a; [cbn in Ha; lia|easy]). pose proof (weight_mk_alt 3 _ Hne) as H1. rewrite map_length, map_map in H1.
  assert (H2 : (list_sum (map (fun x => weight 3 (re_branch frag x)) a) <= 2 * List.length (List.concat (map (fun b => src_branch (map (map_alternative frag) b)) a)))%nat).
  { clear. induction a as [|b a IH]; [cbn; lia|]. cbn [map List.concat]. rewrite list_sum_cons, app_length. pose proof (weight_branch 3 b). lia. }
  pose proof (join_length (s_ "/") (map (fun b => src_branch (map (map_alternative frag) b)) a)) as H3.
  rewrite map_length in H3. change (List.length (s_ "/")) with 1%nat in H3.
  assert (Hne' : map (fun b => src_branch (map (map_alternative frag) b)) a <> []) by (destruct a; [cbn in Ha; lia|easy]).
  specialize (H3 Hne').
  match type of H3 with (List.length ?j + 1 = _)%nat => match goal with |- (_ <= 3 * ?k)%nat => change k with (List.length j) end end.
  match type of H3 with (?j + 1 = ?c + _)%nat => set (J := j) in *; set (C := c) in * end. clearbody J.
  match type of H2 with (?f <= 2 * ?g)%nat => change g with C in H2 end. clearbody C. unfold single_alternation in *. lia.
Qed.
