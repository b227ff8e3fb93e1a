(** The order in which the search tries the pieces of an element. *)
From Coq Require Import Lia PeanoNat Sorting.Sorted.
From Verif Require Export SpecMatch ProofMatch ProofExpand4 ProofUnique.

(** ** Orders of lists *)
Definition longer (p p' : str) : Prop := shorter p' p.
(** Of two different strings in [l], the one that comes first is [R]-preferred. *)
Definition ordered (R : str -> str -> Prop) (l : list str) : Prop := forall p p', earlier p p' l -> R p p'.
Lemma ordered_nil R : ordered R [].
Proof. intros p p' (l1 & l2 & H & _). now destruct l1. Qed.
Lemma ordered_one R p : ordered R [p].
Proof.
  intros x y (l1 & l2 & H & _ & _ & Hy). destruct l1 as [|z l1]; [injection H as -> <-; easy|].
  injection H as _ H. now destruct l1.
Qed.
Lemma sorted_ordered R l : StronglySorted R l -> ordered R l.
Proof.
  intros H p p' (l1 & l2 & -> & _ & _ & Hi). induction l1 as [|x l1 IH]; cbn in H; apply StronglySorted_inv in H as [H Hf].
  - rewrite Forall_forall in Hf. now apply Hf.
  - now apply IH.
Qed.
Lemma ordered_weaken (R S : str -> str -> Prop) l : ordered R l ->
  (forall p p', In p l -> In p' l -> R p p' -> S p p') -> ordered S l.
Proof.
  intros H HRS p p' Hp. apply HRS; [| |now apply H].
  - destruct Hp as (l1 & l2 & -> & _). apply in_elt.
  - destruct Hp as (l1 & l2 & -> & _ & _ & Hi). apply in_or_app. right. now right.
Qed.
Lemma ordered_repeat R a b : ordered R a -> incl b a -> ordered R (a ++ b).
Proof.
  intros Ha Hb p p' (l1 & l2 & E & Hn & Hd & Hi). apply Ha.
  assert (Hp' : In p' a).
  { assert (H : In p' (a ++ b)) by (rewrite E; apply in_or_app; right; now right).
    apply in_app_or in H as [H|H]; auto. }
  assert (Hl : exists m, a = l1 ++ p :: m /\ l2 = m ++ b).
  { clear Ha Hb Hi. revert a E Hp'. induction l1 as [|x l1 IH]; intros a E Hp'.
    - destruct a as [|y a]; [easy|]. cbn in E. injection E as -> <-. now exists a.
    - destruct a as [|y a]; [easy|]. cbn in E. injection E as -> E. destruct (IH (fun H => Hn (or_intror H)) a E) as (m & -> & ->).
      + destruct Hp' as [->|H]; [|exact H]. exfalso. apply Hn. now left.
      + now exists m. }
  destruct Hl as (m & -> & ->). exists l1, m. repeat split; try assumption.
  apply in_app_or in Hp' as [H|[H|H]]; [easy|congruence|exact H].
Qed.
Lemma sorted_app {A} (R : A -> A -> Prop) a b : StronglySorted R a -> StronglySorted R b ->
  (forall p p', In p a -> In p' b -> R p p') -> StronglySorted R (a ++ b).
Proof.
  intros Ha Hb Hab. induction Ha as [|x a Ha IH Hx]; [exact Hb|]. cbn. constructor.
  - apply IH. intros. apply Hab; [now right|assumption].
  - apply Forall_app. split; [exact Hx|]. apply Forall_forall. intros. apply Hab; [now left|assumption].
Qed.
Lemma sorted_map {A B} (R : A -> A -> Prop) (S : B -> B -> Prop) (f : A -> B) l :
  (forall x y, R x y -> S (f x) (f y)) -> StronglySorted R l -> StronglySorted S (map f l).
Proof.
  intros H. induction 1 as [|x l Hl IH Hx]; cbn; constructor; [exact IH|].
  apply Forall_map. eapply Forall_impl; [|exact Hx]. intros. now apply H.
Qed.
Lemma sorted_in {A} (R S : A -> A -> Prop) l : (forall x y, In x l -> In y l -> R x y -> S x y) ->
  StronglySorted R l -> StronglySorted S l.
Proof.
  intros H Hl. induction Hl as [|x l Hl IH Hx]; constructor.
  - apply IH. intros. apply H; [now right|now right|assumption].
  - rewrite Forall_forall in *. intros y Hy. apply H; [now left|now right|now apply Hx].
Qed.
Lemma longer_cons (c : char) x y : longer x y -> longer (c :: x) (c :: y).
Proof. unfold longer, shorter. cbn. lia. Qed.
Lemma longer_nil c x : longer (c :: x) [].
Proof. unfold longer, shorter. cbn. lia. Qed.

Lemma earlier_asym p p' l : earlier p p' l -> earlier p' p l -> False.
Proof.
  intros (l1 & l2 & -> & Hn & Hd & Hi) (m1 & m2 & E & Hm & _ & Hi').
  revert m1 E Hm. induction l1 as [|x l1 IH]; intros m1 E Hm.
  - destruct m1 as [|y m1]; [injection E as E _; congruence|]. injection E as -> _. apply Hm. now left.
  - destruct m1 as [|y m1]; [injection E as -> _; apply Hn; now left|]. injection E as -> E.
    apply (IH (fun H => Hn (or_intror H)) m1 E). intros H. apply Hm. now right.
Qed.
Lemma earlier_filter f p p' l : f p' = true -> earlier p p' (filter f l) -> earlier p p' l.
Proof.
  intros Hf (l1 & l2 & E & Hn & Hd & Hi). revert l1 E Hn. induction l as [|x l IH]; intros l1 E Hn; [now destruct l1|].
  cbn in E. destruct (f x) eqn:Hx.
  - destruct l1 as [|y l1].
    + injection E as -> E. exists [], l. repeat split; [easy|exact Hd|]. rewrite <- E in Hi. now apply filter_In in Hi.
    + injection E as -> E. destruct (IH l1 E (fun H => Hn (or_intror H))) as (m1 & m2 & -> & Hm & Hd' & Hi').
      exists (y :: m1), m2. repeat split; try assumption. intros [->|H]; [apply Hn; now left|easy].
  - destruct (IH l1 E Hn) as (m1 & m2 & -> & Hm & Hd' & Hi').
    exists (x :: m1), m2. repeat split; try assumption. intros [->|H]; [congruence|easy].
Qed.

(** ** The texts tried, in order *)
Fixpoint prefixb (p s : str) : bool :=
  match p, s with
  | [], _ => true
  | c :: p, d :: s => (c =? d) && prefixb p s
  | _, [] => false
  end.
Lemma prefixb_app p q s : prefixb (p ++ q) s = prefixb p s && prefixb q (skipn (List.length p) s).
Proof.
  revert s. induction p as [|c p IH]; intros s; [reflexivity|]. destruct s as [|d s]; [reflexivity|].
  cbn. rewrite IH. now destruct (c =? d).
Qed.
Lemma prefixb_spec p r : prefixb p (p ++ r) = true.
Proof. induction p as [|c p IH]; [reflexivity|]. cbn. now rewrite N.eqb_refl, IH. Qed.

Definition lister := str -> list str.
Definition char_list (P : char -> bool) : lister := fun s =>
  match s with c :: _ => if P c then [[c]] else [] | [] => [] end.
Definition cat (f g : lister) : lister := fun s =>
  flat_map (fun x => map (app x) (g (skipn (List.length x) s))) (f s).
Definition among (l : list str) : lister := fun s => filter (fun p => prefixb p s) l.
(** The starts made of [P]s, the longest first. *)
Fixpoint runs (P : char -> bool) (s : str) : list str :=
  match s with
  | c :: s' => if P c then map (cons c) (runs P s') ++ [[]] else [[]]
  | [] => [[]]
  end.
Definition plus (P : char -> bool) : lister := fun s =>
  match s with c :: s' => if P c then map (cons c) (runs P s') else [] | [] => [] end.

Lemma runs_sorted P s : StronglySorted longer (runs P s).
Proof.
  induction s as [|c s IH]; cbn; [repeat constructor|]. destruct (P c); [|repeat constructor].
  apply sorted_app; [eapply sorted_map; [|exact IH]; apply longer_cons|repeat constructor|].
  intros p p' (x & <- & _)%in_map_iff [<-|[]]. apply longer_nil.
Qed.
Lemma plus_sorted P s : StronglySorted longer (plus P s).
Proof.
  destruct s as [|c s]; cbn; [constructor|]. destruct (P c); [|constructor].
  eapply sorted_map; [|apply runs_sorted]. apply longer_cons.
Qed.

Section Lists.
  Context (digit space word : char -> bool).
  Notation ways := (ways digit space word).
  Definition lists (r : re) (f : lister) : Prop := forall pre s, map w_mid (ways r pre s) = f s.
  Lemma lists_ext r f g : lists r f -> (forall s, f s = g s) -> lists r g.
  Proof. intros H E pre s. now rewrite H. Qed.
  Lemma rest_skipn r pre s w : In w (ways r pre s) -> w_rest w = skipn (List.length (w_mid w)) s.
  Proof.
    intros H. apply ways_sound in H as [E _]. rewrite E.
    rewrite skipn_app, skipn_all, Nat.sub_diag. reflexivity.
  Qed.
  Lemma map_flat_map {A B C} (f : A -> list B) (g : B -> C) l : map g (flat_map f l) = flat_map (fun x => map g (f x)) l.
  Proof. induction l as [|x l IH]; [reflexivity|]. cbn. now rewrite map_app, IH. Qed.
  Lemma flat_map_map' {A B C} (f : A -> B) (g : B -> list C) l : flat_map g (map f l) = flat_map (fun x => g (f x)) l.
  Proof. induction l as [|x l IH]; [reflexivity|]. cbn. now rewrite IH. Qed.
  Lemma lists_empty : lists REmpty (fun _ => [[]]).
  Proof. intros pre s. reflexivity. Qed.
  Lemma lists_char r P : (forall pre s, ways r pre s = one_char P pre s) -> lists r (char_list P).
  Proof. intros H pre s. rewrite H. destruct s as [|c s]; [reflexivity|]. cbn. now destruct (P c). Qed.
  Lemma lists_cap n r f : lists r f -> lists (RCap n r) f.
  Proof. intros H pre s. cbn. rewrite map_map. cbn. apply H. Qed.
  Lemma lists_cat a b f g : lists a f -> lists b g -> lists (RCat a b) (cat f g).
  Proof.
    intros Ha Hb pre s. cbn. unfold followed, cat. rewrite map_flat_map, <- (Ha pre s), flat_map_map'.
    apply flat_map_ext_in. intros w Hw. rewrite map_map. cbn. rewrite <- (rest_skipn a pre s w Hw), <- (Hb (pre ++ w_mid w) (w_rest w)).
    now rewrite map_map.
  Qed.
  Lemma lists_alt a b f g : lists a f -> lists b g -> lists (RAlt a b) (fun s => f s ++ g s).
  Proof. intros Ha Hb pre s. cbn. rewrite map_app, !map_map. cbn. now rewrite <- (Ha pre s), <- (Hb pre s). Qed.
  Lemma lists_opt r f : lists r f -> lists (RRep 0 (Some 1) true r) (fun s => f s ++ [[]]).
  Proof.
    intros H pre s. cbn [Match.ways]. unfold repeated. change (1 <? 0) with false. change (N.to_nat (1 - 0)) with 1%nat. change (N.to_nat 0) with 0%nat.
    cbn [required at_most]. rewrite map_app. cbn [nothing map w_mid]. f_equal.
    rewrite <- (H pre s). unfold followed, nothing. induction (ways r pre s) as [|w l IH]; [reflexivity|]. cbn [flat_map map app].
    etransitivity; [|exact (f_equal (cons (w_mid w)) IH)]. cbn [w_mid]. now rewrite app_nil_r.
  Qed.
  Lemma further_runs body P none fuel : (forall pre s, body pre s = one_char P pre s) -> forall pre s,
    (List.length s < fuel)%nat -> map w_mid (further body none true fuel pre s) = runs P s.
  Proof.
    intros Hb. induction fuel as [|fuel IH]; intros pre s Hl; [lia|].
    cbn [further]. rewrite map_app. cbn [nothing map w_mid]. rewrite Hb.
    destruct s as [|c s]; [reflexivity|]. cbn [one_char runs]. destruct (P c); [|reflexivity].
    cbn [filter followed flat_map w_mid w_rest]. rewrite app_nil_r. f_equal. rewrite map_map. cbn [w_mid].
    rewrite <- (IH (pre ++ [c]) s) by (cbn in Hl; lia). now rewrite map_map.
  Qed.
  Lemma one_plus body P none : (forall pre s, body pre s = one_char P pre s) -> forall pre s,
    map w_mid (at_least_one body none true pre s) = plus P s.
  Proof.
    intros Hb pre s. unfold at_least_one. rewrite Hb. destruct s as [|c s]; [reflexivity|]. cbn [one_char plus]. destruct (P c); [|reflexivity].
    cbn [followed flat_map w_mid w_rest]. rewrite !app_nil_r, map_map. cbn [w_mid].
    rewrite <- (further_runs body P none (S (List.length (c :: s))) Hb (pre ++ [c]) s) by (cbn; lia). now rewrite map_map.
  Qed.
  Lemma lists_star r P : (forall pre s, ways r pre s = one_char P pre s) -> lists (RRep 0 None true r) (runs P).
  Proof.
    intros H pre s. cbn [Match.ways]. unfold repeated. change (N.to_nat 0) with 0%nat. cbv beta iota. rewrite map_app, (one_plus _ P) by exact H.
    destruct s as [|c s]; [reflexivity|]. cbn [plus runs nothing map w_mid]. now destruct (P c).
  Qed.
  Lemma lists_plus r P : (forall pre s, ways r pre s = one_char P pre s) -> lists (RRep 1 None true r) (plus P).
  Proof. intros H pre s. cbn [Match.ways]. unfold repeated. change (N.to_nat 1) with 1%nat. cbn [required]. now apply one_plus. Qed.

  (** ** Texts, optionals, alternations *)
  Lemma among_cat (A B : list str) s : cat (among A) (among B) s = among (flat_map (fun p : str => map (app p) B) A) s.
  Proof.
    unfold cat, among. induction A as [|p A IH]; [reflexivity|]. cbn [flat_map filter].
    rewrite filter_app.
    assert (E : filter (fun q => prefixb q s) (map (app p) B) =
      if prefixb p s then map (app p) (filter (fun q => prefixb q (skipn (List.length p) s)) B) else []).
    { clear IH. induction B as [|q B IH]; cbn; [now destruct (prefixb p s)|]. rewrite prefixb_app, IH.
      destruct (prefixb p s); [|reflexivity]. cbn. now destruct (prefixb q _). }
    etransitivity; [|exact (f_equal2 (@app _) (eq_sym E) IH)]. now destruct (prefixb p s).
  Qed.
  Lemma lists_lits t : lists (mk_cat (map RLit t)) (among [t]).
  Proof.
    induction t as [|c t IH]; [apply lists_empty|].
    assert (Hc : lists (RLit c) (among [[c]])).
    { eapply lists_ext; [apply lists_char with (P := N.eqb c); reflexivity|]. intros [|d s]; [reflexivity|].
      cbn. destruct (N.eqb_spec c d) as [->|]; reflexivity. }
    destruct t as [|c' t]; [exact Hc|]. cbn [map mk_cat] in IH |- *.
    eapply lists_ext; [apply lists_cat; [exact Hc|exact IH]|]. intros s. rewrite among_cat. reflexivity.
  Qed.
  Context {I : Type} (text : I -> str).
  Lemma lists_optional o : lists (re_optional text o) (among (optional_candidates text o)).
  Proof.
    eapply lists_ext; [apply lists_opt, lists_lits|]. intros s. unfold among, optional_candidates. cbn.
    now destruct (prefixb _ s).
  Qed.
  (** ** Concatenations *)
  Lemma followed_nothing pre s n : followed (@app _) pre n (nothing [] pre s) = n pre s.
  Proof.
    unfold followed, nothing. cbn. rewrite !app_nil_r. rewrite <- (map_id (n pre s)) at 2. apply map_ext. now intros [].
  Qed.
  Lemma followed_by_nothing pre ws : followed (@app _) pre (nothing []) ws = ws.
  Proof.
    unfold followed, nothing. induction ws as [|[m q c] ws IH]; [reflexivity|]. cbn in *. now rewrite IH, !app_nil_r.
  Qed.
  Lemma followed_ext join pre n n' ws : (forall p s, n p s = n' p s) -> followed join pre n ws = followed join pre n' ws.
  Proof. intros H. unfold followed. apply flat_map_ext. intros w. now rewrite H. Qed.
  Lemma followed_assoc pre m n ws :
    followed (@app _) pre (fun p s => followed (@app _) p n (m p s)) ws = followed (@app _) pre n (followed (@app _) pre m ws).
  Proof.
    unfold followed. induction ws as [|w ws IH]; [reflexivity|]. cbn [flat_map]. rewrite flat_map_app, <- IH. f_equal.
    rewrite map_flat_map, flat_map_map'. apply flat_map_ext. intros v. rewrite map_map. cbn. rewrite app_assoc.
    apply map_ext. intros u. now rewrite !app_assoc.
  Qed.
  Lemma ways_cons r l pre s : ways (mk_cat (r :: l)) pre s = followed (@app _) pre (ways (mk_cat l)) (ways r pre s).
  Proof. destruct l as [|r' l]; [|reflexivity]. symmetry. apply followed_by_nothing. Qed.
  Lemma ways_app a b pre s : ways (mk_cat (a ++ b)) pre s = followed (@app _) pre (ways (mk_cat b)) (ways (mk_cat a) pre s).
  Proof.
    revert pre s. induction a as [|r a IH]; intros pre s.
    - symmetry. apply followed_nothing.
    - cbn [app]. rewrite !ways_cons, <- followed_assoc. apply followed_ext. exact IH.
  Qed.
  Lemma lists_cat_app a b f g : lists (mk_cat a) f -> lists (mk_cat b) g -> lists (mk_cat (a ++ b)) (cat f g).
  Proof.
    intros Ha Hb. pose proof (lists_cat _ _ _ _ Ha Hb) as H. intros pre s. rewrite ways_app. apply H.
  Qed.
  Lemma lists_alternative a : lists (mk_cat (re_alternative text a)) (among (alternative_candidates text a)).
  Proof. destruct a; [apply lists_optional|apply lists_lits]. Qed.
  Lemma lists_branch b : lists (re_branch text b) (among (branch_candidates text b)).
  Proof.
    unfold re_branch. induction b as [|a b IH]; [apply lists_empty|].
    eapply lists_ext; [cbn [flat_map]; apply lists_cat_app; [apply lists_alternative|exact IH]|].
    intros s. apply among_cat.
  Qed.
  Lemma lists_alternation a : a <> [] -> lists (re_alternation text a) (among (alternation_candidates text a)).
  Proof.
    unfold re_alternation, alternation_candidates. intros Ha. induction a as [|b a IH]; [easy|].
    destruct a as [|b' a]; [cbn; rewrite app_nil_r; apply lists_branch|].
    change (mk_alt (map (re_branch text) (b :: b' :: a))) with (RAlt (re_branch text b) (mk_alt (map (re_branch text) (b' :: a)))).
    eapply lists_ext; [apply lists_alt; [apply lists_branch|now apply IH]|].
    intros s. unfold among. cbn [flat_map]. now rewrite !filter_app.
  Qed.
End Lists.
