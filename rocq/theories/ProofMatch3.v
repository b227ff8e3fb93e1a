(** The order in which the pieces of a built-in parameter are tried. *)
From Coq Require Import Lia PeanoNat Sorting.Sorted.
From Verif Require Export ProofMatch2.

(** ** Concatenations of lists of texts *)
Lemma skipn_add {A} a b (s : list A) : skipn (a + b) s = skipn b (skipn a s).
Proof. revert s; induction a as [|a IH]; intros s; [reflexivity|]. destruct s; cbn; [now rewrite skipn_nil|apply IH]. Qed.
Lemma cat_assoc f g h s : cat (cat f g) h s = cat f (cat g h) s.
Proof.
  unfold cat. induction (f s) as [|x l IH]; [reflexivity|]. cbn [flat_map]. rewrite flat_map_app, IH. f_equal.
  rewrite flat_map_map', map_flat_map. apply flat_map_ext. intros y. rewrite map_map, app_length, skipn_add.
  apply map_ext. intros z. now rewrite app_assoc.
Qed.
Lemma cat_app f g h s : cat (fun s => f s ++ g s) h s = cat f h s ++ cat g h s.
Proof. unfold cat. apply flat_map_app. Qed.
Lemma cat_ext f f' g g' s : (forall s, f s = f' s) -> (forall s, g s = g' s) -> cat f g s = cat f' g' s.
Proof. intros Hf Hg. unfold cat. rewrite Hf. apply flat_map_ext. intros x. now rewrite Hg. Qed.
Lemma in_cat f g s x : In x (cat f g s) <-> exists a b, x = a ++ b /\ In a (f s) /\ In b (g (skipn (List.length a) s)).
Proof.
  unfold cat. rewrite in_flat_map. split.
  - intros (a & Ha & (b & <- & Hb)%in_map_iff). eauto.
  - intros (a & b & -> & Ha & Hb). exists a. split; [exact Ha|]. now apply (in_map (app a)).
Qed.
Lemma cat_nil f g s : f s = [] -> cat f g s = [].
Proof. intros H. unfold cat. now rewrite H. Qed.
Lemma cat_empty f g s : f s = [[]] -> cat f g s = g s.
Proof. intros H. unfold cat. rewrite H. cbn. rewrite app_nil_r. apply map_id. Qed.
Lemma cat_char P g s : cat (char_list P) g s =
  match s with c :: s' => if P c then map (cons c) (g s') else [] | [] => [] end.
Proof. destruct s as [|c s]; [reflexivity|]. unfold cat. cbn. destruct (P c); [|reflexivity]. cbn. apply app_nil_r. Qed.
Lemma cat_runs_cons P g c s : P c = true -> cat (runs P) g (c :: s) = map (cons c) (cat (runs P) g s) ++ g (c :: s).
Proof.
  intros H. unfold cat. cbn [runs]. rewrite H, flat_map_app. cbn [flat_map List.length skipn]. rewrite app_nil_r.
  f_equal; [|apply map_id]. rewrite flat_map_map', map_flat_map. apply flat_map_ext. intros x. now rewrite map_map.
Qed.
Lemma cat_runs_stop P g s : match s with c :: _ => P c = false | [] => True end -> cat (runs P) g s = g s.
Proof. intros H. apply cat_empty. destruct s as [|c s]; [reflexivity|]. cbn. now rewrite H. Qed.
Lemma cat_plus P g s : cat (plus P) g s =
  match s with c :: s' => if P c then map (cons c) (cat (runs P) g s') else [] | [] => [] end.
Proof.
  destruct s as [|c s]; [reflexivity|]. unfold cat. cbn [plus]. destruct (P c); [|reflexivity].
  rewrite flat_map_map', map_flat_map. apply flat_map_ext. intros x. now rewrite map_map.
Qed.
Lemma in_runs P s x : In x (runs P s) -> Forall (fun c => P c = true) x.
Proof.
  revert x; induction s as [|c s IH]; intros x; cbn; [intros [<-|[]]; constructor|]. destruct (P c) eqn:E.
  - intros [(y & <- & Hy)%in_map_iff|[<-|[]]]%in_app_or; [|constructor]. constructor; [exact E|now apply IH].
  - intros [<-|[]]. constructor.
Qed.
Lemma plus_runs P s x : In x (plus P s) <-> In x (runs P s) /\ x <> [].
Proof.
  destruct s as [|c s]; cbn; [intuition congruence|]. destruct (P c); cbn; [|intuition congruence]. rewrite in_app_iff. split.
  - intros (y & <- & Hy)%in_map_iff. split; [left; now apply in_map|easy].
  - intros [[H|[<-|[]]] Hx]; [exact H|easy].
Qed.

(** ** Sortedness *)
Definition sorted (f : lister) : Prop := forall s, StronglySorted longer (f s).
Lemma sorted_cons c l : StronglySorted longer l -> StronglySorted longer (map (cons c) l).
Proof. apply sorted_map, longer_cons. Qed.
Lemma sorted_cons_nil c l : StronglySorted longer l -> StronglySorted longer (map (cons c) l ++ [[]]).
Proof.
  intros H. apply sorted_app; [now apply sorted_cons|repeat constructor|].
  intros p p' (x & <- & _)%in_map_iff [<-|[]]. apply longer_nil.
Qed.
Lemma sorted_cat_char P g : sorted g -> sorted (cat (char_list P) g).
Proof. intros H s. rewrite cat_char. destruct s as [|c s]; [constructor|]. destruct (P c); [apply sorted_cons, H|constructor]. Qed.
Lemma sorted_cat_runs P g : (forall c s, P c = true -> g (c :: s) = [] \/ g (c :: s) = [[]]) -> sorted g -> sorted (cat (runs P) g).
Proof.
  intros Hg Hs s. induction s as [|c s IH]; [rewrite cat_runs_stop by exact I; apply Hs|].
  destruct (P c) eqn:E; [|rewrite cat_runs_stop by exact E; apply Hs].
  rewrite cat_runs_cons by exact E. destruct (Hg c s E) as [-> | ->]; [rewrite app_nil_r; now apply sorted_cons|now apply sorted_cons_nil].
Qed.
Lemma sorted_cat_plus P g : (forall c s, P c = true -> g (c :: s) = [] \/ g (c :: s) = [[]]) -> sorted g -> sorted (cat (plus P) g).
Proof.
  intros Hg Hs s. rewrite cat_plus. destruct s as [|c s]; [constructor|]. destruct (P c); [|constructor].
  apply sorted_cons. now apply sorted_cat_runs.
Qed.
(** An optional sign. *)
Definition opt (f : lister) : lister := fun s => f s ++ [[]].
Lemma cat_opt_char S g s : cat (opt (char_list S)) g s =
  match s with c :: s' => if S c then map (cons c) (g s') else [] | [] => [] end ++ g s.
Proof. unfold opt. rewrite cat_app, cat_char. f_equal. now apply (cat_empty (fun _ => [[]])). Qed.
Lemma sorted_signed S g : (forall c s, S c = true -> g (c :: s) = []) -> sorted g -> sorted (cat (opt (char_list S)) g).
Proof.
  intros Hg Hs s. rewrite cat_opt_char. destruct s as [|c s]; [apply Hs|]. destruct (S c) eqn:E; [|apply Hs].
  rewrite (Hg c s E), app_nil_r. apply sorted_cons, Hs.
Qed.

Lemma earlier_cons (c : char) p p' l : earlier p p' (map (cons c) l) ->
  exists x x', p = c :: x /\ p' = c :: x' /\ earlier x x' l.
Proof.
  intros (l1 & l2 & E & Hn & Hd & Hi). apply map_eq_app in E as (m1 & m2 & -> & <- & E).
  destruct m2 as [|x m2]; [discriminate|]. injection E as <- <-. apply in_map_iff in Hi as (x' & <- & Hi).
  exists x, x'. repeat split. exists m1, m2. repeat split; [|congruence|exact Hi].
  intros H. apply Hn. now apply in_map.
Qed.

Section Numbers.
  Context (digit : char -> bool) (Hdigit : plain_digits digit).
  Definition fp (p p' : str) : Prop :=
    ~ In point p /\ In point p' \/ (In point p <-> In point p') /\ shorter p' p.
  Definition sgn (c : char) : bool := (c =? c_ "+") || (c =? c_ "-").
  Definition exp_char (c : char) : bool := (c =? c_ "e") || (c =? c_ "E").
  Lemma sgn_digit c : sgn c = true -> digit c = false.
  Proof. intros [E|E]%orb_prop; apply N.eqb_eq in E as ->; apply Hdigit; vm_compute; tauto. Qed.
  Lemma exp_digit c : digit c = true -> exp_char c = false.
  Proof.
    intros H. unfold exp_char. destruct (N.eqb_spec c (c_ "e")) as [->|]; [rewrite Hdigit in H; [easy|vm_compute; tauto]|].
    destruct (N.eqb_spec c (c_ "E")) as [->|]; [rewrite Hdigit in H; [easy|vm_compute; tauto]|]. reflexivity.
  Qed.
  Lemma digit_point c : digit c = true -> c <> point.
  Proof. intros H ->. rewrite Hdigit in H; [easy|]. vm_compute. tauto. Qed.

  Definition exps : lister := opt (cat (char_list exp_char) (cat (opt (char_list sgn)) (plus digit))).
  Lemma exps_sorted : sorted exps.
  Proof.
    intros s. unfold exps, opt at 1. rewrite cat_char.
    assert (H : sorted (cat (opt (char_list sgn)) (plus digit))).
    { apply sorted_signed; [|exact (plus_sorted digit)]. intros c s' E. cbn. now rewrite (sgn_digit c E). }
    destruct s as [|c s]; [repeat constructor|]. destruct (exp_char c); [|repeat constructor].
    apply sorted_cons_nil, H.
  Qed.
  Lemma exps_digit c s : digit c = true -> exps (c :: s) = [[]].
  Proof. intros H. unfold exps, opt at 1. rewrite cat_char, (exp_digit c H). reflexivity. Qed.
  Lemma exps_point s x : In x (exps s) -> ~ In point x.
  Proof.
    unfold exps, opt at 1. rewrite in_app_iff, cat_char. intros [H|[<-|[]]]; [|easy].
    destruct s as [|c s]; [easy|]. destruct (exp_char c) eqn:E; [|easy]. apply in_map_iff in H as (y & <- & Hy).
    intros [Hc|Hy']; [rewrite Hc in E; discriminate E|]. rewrite cat_opt_char in Hy.
    apply in_app_or in Hy as [Hy|Hy].
    - destruct s as [|d s]; [easy|]. destruct (sgn d) eqn:Ed; [|easy]. apply in_map_iff in Hy as (z & <- & Hz).
      destruct Hy' as [H|H]; [rewrite H in Ed; discriminate Ed|]. apply plus_runs in Hz as [Hz _]. apply in_runs in Hz.
      rewrite Forall_forall in Hz. now apply Hz, digit_point in H.
    - apply plus_runs in Hy as [Hy _]. apply in_runs in Hy. rewrite Forall_forall in Hy. now apply Hy, digit_point in Hy'.
  Qed.
  Definition dot : lister := char_list (N.eqb point).
  Definition whole : lister := cat (plus digit) exps.
  Definition fraction : lister := cat dot (cat (runs digit) exps).
  Definition fraction1 : lister := cat dot (cat (plus digit) exps).
  Definition pointed : lister := cat (plus digit) fraction.
  Definition pointed1 : lister := cat (runs digit) fraction1.
  Definition decimals : lister := fun s => whole s ++ (pointed s ++ pointed1 s).

  Lemma whole_sorted : sorted whole.
  Proof. apply sorted_cat_plus; [|exact exps_sorted]. intros c s H. right. now apply exps_digit. Qed.
  Lemma dot_digit g c s : digit c = true -> cat dot g (c :: s) = [].
  Proof. intros H. unfold dot. rewrite cat_char. apply digit_point in H. destruct (N.eqb_spec point c); [congruence|reflexivity]. Qed.
  Lemma fraction_sorted : sorted fraction.
  Proof.
    apply sorted_cat_char, sorted_cat_runs; [|exact exps_sorted]. intros c s H. right. now apply exps_digit.
  Qed.
  Lemma fraction1_sorted : sorted fraction1.
  Proof. apply sorted_cat_char, whole_sorted. Qed.
  Lemma pointed_sorted : sorted pointed.
  Proof. apply sorted_cat_plus; [|exact fraction_sorted]. intros c s H. left. now apply dot_digit. Qed.
  Lemma whole_point s x : In x (whole s) -> ~ In point x.
  Proof.
    intros (a & b & -> & Ha & Hb)%in_cat. apply plus_runs in Ha as [Ha _]. apply in_runs in Ha. apply exps_point in Hb.
    rewrite in_app_iff. intros [H|H]; [|easy]. rewrite Forall_forall in Ha. now apply Ha, digit_point in H.
  Qed.
  Lemma dot_point g s x : In x (cat dot g s) -> In point x.
  Proof.
    unfold dot. rewrite cat_char. destruct s as [|c s]; [easy|]. destruct (N.eqb_spec point c) as [<-|]; [|easy].
    intros (y & <- & _)%in_map_iff. now left.
  Qed.
  Lemma pointed_point s x : In x (pointed s) -> In point x.
  Proof. intros (a & b & -> & _ & Hb)%in_cat. apply in_or_app. right. eapply dot_point, Hb. Qed.
  Lemma fraction1_point s x : In x (fraction1 s) -> In point x.
  Proof. apply dot_point. Qed.
  Lemma fraction_incl s : incl (fraction1 s) (fraction s).
  Proof.
    intros x. unfold fraction1, fraction, dot. rewrite !cat_char. destruct s as [|c s]; [easy|].
    destruct (point =? c); [|easy]. intros (y & <- & Hy)%in_map_iff. apply in_map.
    apply in_cat in Hy as (a & b & -> & Ha & Hb). apply in_cat. apply plus_runs in Ha as [Ha _]. eauto.
  Qed.
  Lemma starts_with_point s : (exists s', s = point :: s') \/ (forall g, cat dot g s = []).
  Proof.
    destruct s as [|c s]; [now right|]. unfold dot. destruct (N.eqb_spec point c) as [<-|Hc]; [left; eauto|right].
    intros g. rewrite cat_char. destruct (N.eqb_spec point c); [easy|reflexivity].
  Qed.
  Lemma pointed_incl s : (forall g, cat dot g s = []) -> incl (pointed1 s) (pointed s).
  Proof.
    intros H x (a & b & -> & Ha & Hb)%in_cat. apply in_cat. exists a, b. split; [reflexivity|].
    split; [|now apply fraction_incl]. apply plus_runs. split; [exact Ha|]. intros ->. cbn in Hb.
    unfold fraction1 in Hb. now rewrite H in Hb.
  Qed.
  Lemma point_digit : digit point = false.
  Proof. apply Hdigit. vm_compute. tauto. Qed.
  Lemma decimals_ordered s : ordered fp (decimals s).
  Proof.
    unfold decimals. destruct (starts_with_point s) as [[s' ->]|H].
    - unfold whole, pointed. rewrite !cat_plus, point_digit. cbn [app].
      unfold pointed1. rewrite cat_runs_stop by exact point_digit.
      apply sorted_ordered. eapply sorted_in; [|apply fraction1_sorted].
      intros x y Hx Hy Hl. right. apply fraction1_point in Hx, Hy. split; [tauto|exact Hl].
    - rewrite app_assoc. apply ordered_repeat.
      + apply sorted_ordered, sorted_app.
        * eapply sorted_in; [|apply whole_sorted]. intros x y Hx Hy Hl. right. apply whole_point in Hx, Hy. split; [tauto|exact Hl].
        * eapply sorted_in; [|apply pointed_sorted]. intros x y Hx Hy Hl. right. apply pointed_point in Hx, Hy. split; [tauto|exact Hl].
        * intros x y Hx Hy. left. split; [eapply whole_point, Hx|eapply pointed_point, Hy].
      + intros x Hx. apply in_or_app. right. now apply pointed_incl.
  Qed.
  Lemma decimals_none s : match s with c :: _ => digit c = false /\ c <> point | [] => True end -> decimals s = [].
  Proof.
    unfold decimals, whole, pointed, pointed1. rewrite !cat_plus. destruct s as [|c s]; [reflexivity|]. intros [H Hp].
    rewrite H, cat_runs_stop by exact H. unfold fraction1, dot. rewrite cat_char. destruct (N.eqb_spec point c); [congruence|reflexivity].
  Qed.
  Definition unsigned : lister := fun s => among [s_ "inf"] s ++ (among [s_ "NaN"] s ++ decimals s).
  Lemma first_char c t s : prefixb (c :: t) s = true -> exists s', s = c :: s'.
  Proof. destruct s as [|d s]; cbn; [discriminate|]. intros [E _]%andb_prop. apply N.eqb_eq in E as ->. eauto. Qed.
  Lemma letter_decimals c s : In c (s_ "+-eEiN") -> decimals (c :: s) = [].
  Proof.
    intros H. apply decimals_none. split.
    - apply Hdigit. revert H. vm_compute. tauto.
    - intros ->. revert H. vm_compute. intuition discriminate.
  Qed.
  Lemma unsigned_ordered s : ordered fp (unsigned s).
  Proof.
    unfold unsigned, among. cbn [filter]. destruct (prefixb (s_ "inf") s) eqn:E1.
    - apply first_char in E1 as (s' & ->). rewrite letter_decimals by (vm_compute; tauto). cbn. apply ordered_one.
    - destruct (prefixb (s_ "NaN") s) eqn:E2; [|apply decimals_ordered].
      apply first_char in E2 as (s' & ->). rewrite letter_decimals by (vm_compute; tauto). apply ordered_one.
  Qed.
  Lemma unsigned_sign c s : sgn c = true -> unsigned (c :: s) = [].
  Proof.
    intros H. unfold unsigned, among. rewrite letter_decimals.
    - unfold sgn in H. apply orb_prop in H as [E|E]; apply N.eqb_eq in E as ->; reflexivity.
    - unfold sgn in H. apply orb_prop in H as [E|E]; apply N.eqb_eq in E as ->; vm_compute; tauto.
  Qed.
  Definition floats : lister := cat (opt (char_list sgn)) unsigned.
  Lemma floats_ordered s : ordered fp (floats s).
  Proof.
    unfold floats. rewrite cat_opt_char. destruct s as [|c s]; [apply unsigned_ordered|].
    destruct (sgn c) eqn:E; [|apply unsigned_ordered]. rewrite (unsigned_sign c s E), app_nil_r.
    intros p p' (x & x' & -> & -> & H)%earlier_cons. apply unsigned_ordered in H. unfold fp, shorter in *. cbn [In List.length].
    assert (c <> point) by (intros ->; discriminate E). intuition auto; right; split; try lia; tauto.
  Qed.
  Definition ints : lister := fun s => cat (opt (char_list (N.eqb 45))) (plus digit) s ++ plus digit s.
  Lemma ints_ordered s : ordered longer (ints s).
  Proof.
    unfold ints. apply ordered_repeat.
    - apply sorted_ordered. apply sorted_signed; [|exact (plus_sorted digit)].
      intros c s' E. apply N.eqb_eq in E as <-. cbn. rewrite Hdigit; [reflexivity|vm_compute; tauto].
    - intros x Hx. rewrite cat_opt_char. apply in_or_app. now right.
  Qed.
End Numbers.

(** ** The regexes of the built-in parameters *)
Section BuiltIn.
  Context (digit space word : char -> bool).
  Notation ways := (ways digit space word).
  Notation lists := (lists digit space word).
  Lemma one_char_ext P Q pre s : (forall c, P c = Q c) -> one_char P pre s = one_char Q pre s.
  Proof. intros H. destruct s; [reflexivity|]. cbn. now rewrite H. Qed.
  Lemma ways_digit pre s : ways d_class pre s = one_char digit pre s.
  Proof. apply one_char_ext. intros c. unfold class_has. cbn. now destruct (digit c). Qed.
  Lemma range_eq (a c : N) : (a <=? c) && (c <=? a) = (c =? a).
  Proof. destruct (N.leb_spec a c), (N.leb_spec c a), (N.eqb_spec c a); cbn; try reflexivity; lia. Qed.
  Lemma ways_sign pre s : ways (RClass (mkClass false [CRange 43 43; CRange 45 45])) pre s = one_char sgn pre s.
  Proof. apply one_char_ext. intros c. unfold class_has. cbn [cl_negated cl_items existsb item_has]. now rewrite xorb_false_l, !range_eq, orb_false_r. Qed.
  Lemma ways_exp pre s : ways (RClass (mkClass false [CRange 101 101; CRange 69 69])) pre s = one_char exp_char pre s.
  Proof. apply one_char_ext. intros c. unfold class_has. cbn [cl_negated cl_items existsb item_has]. now rewrite xorb_false_l, !range_eq, orb_false_r. Qed.

  Lemma lists_int : lists re_int (ints digit).
  Proof.
    apply lists_cap. apply lists_alt.
    - apply lists_cat; [apply lists_opt, lists_char; reflexivity|apply lists_plus, ways_digit].
    - apply lists_plus, ways_digit.
  Qed.
  Lemma lists_word : lists re_word (plus (fun c => negb (space c))).
  Proof.
    apply lists_cap, lists_plus. intros pre s. apply one_char_ext. intros c. unfold class_has. cbn. now destruct (space c).
  Qed.
  Lemma lists_anonymous : lists re_anonymous (runs (fun c => negb (c =? 10))).
  Proof. apply lists_cap, lists_star. reflexivity. Qed.
  Lemma lists_float : lists re_float (floats digit).
  Proof.
    apply lists_cap. apply lists_cat; [apply lists_opt, lists_char, ways_sign|].
    apply lists_alt; [exact (lists_lits _ _ _ (s_ "inf"))|].
    apply lists_alt; [exact (lists_lits _ _ _ (s_ "NaN"))|].
    eapply lists_ext.
    - apply lists_cat.
      + apply lists_alt; [apply lists_plus, ways_digit|]. apply lists_alt.
        * apply lists_cat; [apply lists_plus, ways_digit|]. apply lists_cat; [apply lists_char; reflexivity|apply lists_star, ways_digit].
        * apply lists_cat; [apply lists_star, ways_digit|]. apply lists_cat; [apply lists_char; reflexivity|apply lists_plus, ways_digit].
      + apply lists_opt. apply lists_cat; [apply lists_char, ways_exp|].
        apply lists_cat; [apply lists_opt, lists_char, ways_sign|apply lists_plus, ways_digit].
    - intros s. cbv beta. rewrite !cat_app. unfold decimals. f_equal. f_equal.
      + rewrite cat_assoc. apply cat_ext; [reflexivity|]. intros u. apply cat_assoc.
      + rewrite cat_assoc. apply cat_ext; [reflexivity|]. intros u. apply cat_assoc.
  Qed.
End BuiltIn.
