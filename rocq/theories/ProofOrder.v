(** Regexes that are searched in the same order: of the ways to match, the first with any given property is
    the same. *)
From Coq Require Import PeanoNat.
From Verif Require Export ProofMatch2 ProofHir4.

(** ** Lists with the same first element of any given property *)
Definition first_same {A} (l l' : list A) : Prop := forall P : A -> bool, find P l = find P l'.
Section Lists.
  Context {A B : Type}.
  Implicit Types l : list A.
  Lemma first_refl l : first_same l l.
  Proof. intros P. reflexivity. Qed.
  Lemma first_sym l l' : first_same l l' -> first_same l' l.
  Proof. intros H P. symmetry. apply H. Qed.
  Lemma first_trans l l' l'' : first_same l l' -> first_same l' l'' -> first_same l l''.
  Proof. intros H H' P. now rewrite H, H'. Qed.
  Lemma find_app P l l' : find P (l ++ l') = match find P l with Some x => Some x | None => find P l' end.
  Proof. induction l as [|x l IH]; cbn; [reflexivity|]. now destruct (P x). Qed.
  Lemma first_app l1 l2 l1' l2' : first_same l1 l1' -> first_same l2 l2' -> first_same (l1 ++ l2) (l1' ++ l2').
  Proof. intros H1 H2 P. now rewrite !find_app, H1, H2. Qed.
  Lemma find_ext P Q l : (forall x, In x l -> P x = Q x) -> find P l = find Q l.
  Proof.
    induction l as [|x l IH]; intros H; cbn; [reflexivity|]. rewrite (H x) by now left. rewrite IH; [reflexivity|].
    intros y Hy. apply H. now right.
  Qed.
  Lemma find_flat_map (f : A -> list B) P l : find P (flat_map f l) =
    match find (fun x => match find P (f x) with Some _ => true | None => false end) l with
    | Some x => find P (f x)
    | None => None
    end.
  Proof.
    induction l as [|x l IH]; cbn; [reflexivity|].
    assert (E : find P (f x ++ flat_map f l) = match find P (f x) with Some y => Some y | None => find P (flat_map f l) end).
    { clear. induction (f x) as [|y m IH]; cbn; [reflexivity|]. now destruct (P y). }
    rewrite E. destruct (find P (f x)) eqn:F; [now rewrite F|]. exact IH.
  Qed.
  Lemma first_flat_map (f g : A -> list B) l l' : first_same l l' -> (forall x, In x l -> first_same (f x) (g x)) ->
    first_same (flat_map f l) (flat_map g l').
  Proof.
    intros Hl Hf P. rewrite !find_flat_map, <- Hl.
    rewrite (find_ext _ (fun x => match find P (g x) with Some _ => true | None => false end)) by (intros x Hx; now rewrite (Hf x Hx)).
    destruct (find _ l) as [x|] eqn:E; [|reflexivity]. apply find_some in E as [E _]. now apply Hf.
  Qed.
  Lemma find_map (f : A -> B) P l : find P (map f l) = option_map f (find (fun x => P (f x)) l).
  Proof. induction l as [|x l IH]; cbn; [reflexivity|]. now destruct (P (f x)). Qed.
  Lemma first_map (f : A -> B) l l' : first_same l l' -> first_same (map f l) (map f l').
  Proof. intros H P. now rewrite !find_map, H. Qed.
  Lemma find_filter Q P l : find P (filter Q l) = find (fun x => Q x && P x) l.
  Proof. induction l as [|x l IH]; cbn; [reflexivity|]. destruct (Q x); cbn; [now rewrite IH|exact IH]. Qed.
  Lemma first_filter Q l l' : first_same l l' -> first_same (filter Q l) (filter Q l').
  Proof. intros H P. now rewrite !find_filter, H. Qed.
  Lemma first_all x l : l <> [] -> (forall y, In y l -> y = x) -> first_same l [x].
  Proof.
    intros Hl H P. cbn. destruct (P x) eqn:E.
    - destruct l as [|y l]; [easy|]. rewrite (H y) by now left. cbn. now rewrite E.
    - clear Hl. induction l as [|y l IH]; [reflexivity|]. cbn. rewrite (H y) by now left. rewrite E. apply IH. intros z Hz. apply H. now right.
  Qed.
  Lemma first_head l l' : first_same l l' -> hd_error l = hd_error l'.
  Proof.
    intros H. specialize (H (fun _ => true)). destruct l, l'; cbn in *; congruence.
  Qed.
  Lemma first_nil l : first_same l [] -> l = [].
  Proof. intros H. specialize (H (fun _ => true)). now destruct l. Qed.
End Lists.

Section Order.
  Context (digits spaces words : ranges).
  Notation rm := (Regex.rm (in_ranges digits) (in_ranges spaces) (in_ranges words)).
  Notation class_has := (Regex.class_has (in_ranges digits) (in_ranges spaces) (in_ranges words)).
  Notation ways := (Match.ways (in_ranges digits) (in_ranges spaces) (in_ranges words)).
  Notation wsound := (ways_sound (in_ranges digits) (in_ranges spaces) (in_ranges words)).
  Notation matcher := (str -> str -> list way).

  (** The same matches in the same order, on strings of Rust chars. *)
  Definition alike_on (m m' : matcher) : Prop := forall pre s, Forall scalar s -> first_same (m pre s) (m' pre s).
  Definition oequiv (a b : re) : Prop :=
    List.length (groups a) = List.length (groups b) /\ alike_on (ways a) (ways b).
  Lemma oequiv_refl a : oequiv a a.
  Proof. split; [reflexivity|]. intros pre s _. apply first_refl. Qed.
  Lemma oequiv_sym a b : oequiv a b -> oequiv b a.
  Proof. intros [H1 H2]. split; [auto|]. intros pre s Hs. now apply first_sym, H2. Qed.
  Lemma oequiv_trans a b c : oequiv a b -> oequiv b c -> oequiv a c.
  Proof. intros [H1 H2] [H3 H4]. split; [congruence|]. intros pre s Hs. eapply first_trans; [now apply H2|now apply H4]. Qed.
  Lemma oequiv_eq a b : List.length (groups a) = List.length (groups b) ->
    (forall pre s, Forall scalar s -> ways a pre s = ways b pre s) -> oequiv a b.
  Proof. intros H1 H2. split; [exact H1|]. intros pre s Hs. rewrite H2 by exact Hs. apply first_refl. Qed.

  (** ** Congruence *)
  Lemma way_scalar a pre s w : Forall scalar s -> In w (ways a pre s) -> Forall scalar (w_rest w).
  Proof. intros Hs Hw. apply wsound in Hw as [-> _]. now apply Forall_app in Hs as [_ Hs]. Qed.
  Lemma way_caps a pre s w : In w (ways a pre s) -> List.length (w_caps w) = List.length (groups a).
  Proof. intros Hw. apply wsound in Hw as [_ Hw]. exact (rm_caps _ _ _ _ _ _ _ _ Hw). Qed.
  Lemma followed_alike join pre n n' ws ws' : first_same ws ws' -> (forall w, In w ws -> Forall scalar (w_rest w)) ->
    alike_on n n' -> first_same (followed join pre n ws) (followed join pre n' ws').
  Proof.
    intros Hw Hr Hn. apply first_flat_map; [exact Hw|]. intros w Hi. apply first_map, Hn, Hr, Hi.
  Qed.
  Lemma oequiv_cat a a' b b' : oequiv a a' -> oequiv b b' -> oequiv (RCat a b) (RCat a' b').
  Proof.
    intros [La Ha] [Lb Hb]. split; [cbn; rewrite !app_length; lia|]. intros pre s Hs. cbn.
    apply followed_alike; [now apply Ha|intros w; now apply way_scalar|exact Hb].
  Qed.
  Lemma oequiv_alt a a' b b' : oequiv a a' -> oequiv b b' -> oequiv (RAlt a b) (RAlt a' b').
  Proof.
    intros [La Ha] [Lb Hb]. split; [cbn; rewrite !app_length; lia|]. intros pre s Hs. cbn.
    rewrite (nones_eq a a' La), (nones_eq b b' Lb). apply first_app; apply first_map; [now apply Ha|now apply Hb].
  Qed.
  Lemma required_alike a a' n n' k : alike_on (ways a) (ways a') -> alike_on n n' ->
    alike_on (required (ways a) n k) (required (ways a') n' k).
  Proof.
    intros Ha Hn. induction k as [|k IH]; [exact Hn|]. intros pre s Hs. cbn [required].
    apply followed_alike; [now apply Ha|intros w; now apply way_scalar|exact IH].
  Qed.
  Lemma choice_alike (g : bool) (l l' : list way) x : first_same l l' -> first_same (if g then l ++ x else x ++ l) (if g then l' ++ x else x ++ l').
  Proof. intros H. destruct g; apply first_app; try apply first_refl; exact H. Qed.
  Lemma at_most_alike a a' none g k : alike_on (ways a) (ways a') -> alike_on (at_most (ways a) none g k) (at_most (ways a') none g k).
  Proof.
    intros Ha. induction k as [|k IH]; intros pre s Hs; [apply first_refl|]. cbn [at_most]. apply choice_alike.
    apply followed_alike; [now apply Ha|intros w; now apply way_scalar|exact IH].
  Qed.
  Lemma further_alike a a' none g fuel : alike_on (ways a) (ways a') -> alike_on (further (ways a) none g fuel) (further (ways a') none g fuel).
  Proof.
    intros Ha. induction fuel as [|fuel IH]; intros pre s Hs; [apply first_refl|]. cbn [further]. apply choice_alike.
    apply followed_alike; [apply first_filter; now apply Ha|intros w [Hw _]%filter_In; now apply (way_scalar a pre s w)|exact IH].
  Qed.
  Lemma at_least_one_alike a a' none g : alike_on (ways a) (ways a') -> alike_on (at_least_one (ways a) none g) (at_least_one (ways a') none g).
  Proof.
    intros Ha pre s Hs. apply first_flat_map; [now apply Ha|]. intros w Hw. destruct (w_mid w); [apply first_refl|].
    apply followed_alike; [apply first_refl| |now apply further_alike]. intros v [<-|[]]. now apply (way_scalar a pre s w).
  Qed.
  Lemma oequiv_rep min max g a a' : oequiv a a' -> oequiv (RRep min max g a) (RRep min max g a').
  Proof.
    intros [L H]. split; [exact L|]. intros pre s Hs. cbn [Match.ways]. unfold repeated. rewrite (nones_eq a a' L). destruct max as [n|].
    - destruct (n <? min); [apply first_refl|]. apply required_alike; [exact H|now apply at_most_alike|exact Hs].
    - destruct (N.to_nat min) as [|k]; [|apply required_alike; [exact H|now apply at_least_one_alike|exact Hs]].
      apply choice_alike. now apply at_least_one_alike.
  Qed.
  Lemma oequiv_cap n n' a a' : oequiv a a' -> oequiv (RCap n a) (RCap n' a').
  Proof. intros [L H]. split; [cbn; congruence|]. intros pre s Hs. cbn. now apply first_map, H. Qed.
  Lemma one_char_ext (P Q : char -> bool) pre s : (forall c, scalar c -> P c = Q c) -> Forall scalar s ->
    one_char P pre s = one_char Q pre s.
  Proof. intros H Hs. destruct s as [|c s]; [reflexivity|]. cbn. inversion_clear Hs. now rewrite H. Qed.
  Lemma oequiv_class k k' : (forall c, scalar c -> class_has k c = class_has k' c) -> oequiv (RClass k) (RClass k').
  Proof. intros H. apply oequiv_eq; [reflexivity|]. intros pre s Hs. now apply one_char_ext. Qed.

  (** ** Alternatives *)
  Lemma ways_rfail pre s : ways rfail pre s = [].
  Proof. cbn. now destruct s. Qed.
  Lemma way_eta w : mkway (w_mid w) (w_rest w) (w_caps w) = w.
  Proof. now destruct w. Qed.
  Lemma o_alt_fail a : oequiv (RAlt a rfail) a.
  Proof.
    apply oequiv_eq; [cbn; now rewrite app_nil_r|]. intros pre s Hs. cbn [Match.ways]. change (one_char (class_has (mkClass false [])) pre s) with (ways rfail pre s).
    rewrite ways_rfail. cbn [map]. rewrite app_nil_r. rewrite <- (map_id (ways a pre s)) at 2. apply map_ext.
    intros w. cbn. rewrite app_nil_r. apply way_eta.
  Qed.
  Lemma o_fail_alt a : oequiv (RAlt rfail a) a.
  Proof.
    apply oequiv_eq; [reflexivity|]. intros pre s Hs. cbn [Match.ways]. change (one_char (class_has (mkClass false [])) pre s) with (ways rfail pre s).
    rewrite ways_rfail. cbn [map app]. rewrite <- (map_id (ways a pre s)) at 2. apply map_ext.
    intros w. apply way_eta.
  Qed.
  Lemma o_alt_assoc a b d : oequiv (RAlt a (RAlt b d)) (RAlt (RAlt a b) d).
  Proof.
    apply oequiv_eq; [cbn; rewrite !app_length; lia|]. intros pre s Hs. cbn. rewrite !map_app, !map_map, <- app_assoc. cbn.
    f_equal; [|f_equal]; apply map_ext; intros w; rewrite ?nones_alt, ?app_assoc; reflexivity.
  Qed.
  Lemma o_ralt_app l l' : oequiv (ralt (l ++ l')) (RAlt (ralt l) (ralt l')).
  Proof.
    induction l as [|r l IH]; cbn [app ralt fold_right]; [apply oequiv_sym, o_fail_alt|].
    eapply oequiv_trans; [apply oequiv_alt; [apply oequiv_refl|exact IH]|]. apply o_alt_assoc.
  Qed.
  Lemma o_ralt_one r : oequiv (ralt [r]) r.
  Proof. apply o_alt_fail. Qed.
  Lemma o_ralt_mk_alt l : l <> [] -> oequiv (mk_alt l) (ralt l).
  Proof.
    induction l as [|r [|r' l] IH]; intros Hl; [easy|apply oequiv_sym, o_alt_fail|].
    change (mk_alt (r :: r' :: l)) with (RAlt r (mk_alt (r' :: l))). apply oequiv_alt; [apply oequiv_refl|]. now apply IH.
  Qed.
  Lemma o_ralt_ext l l' : Forall2 oequiv l l' -> oequiv (ralt l) (ralt l').
  Proof. induction 1; cbn; [apply oequiv_refl|]. now apply oequiv_alt. Qed.

  (** ** Concatenations *)
  Lemma o_cat_nil a : oequiv (RCat a REmpty) a.
  Proof. apply oequiv_eq; [cbn; now rewrite app_nil_r|]. intros pre s Hs. apply followed_by_nothing. Qed.
  Lemma o_nil_cat a : oequiv (RCat REmpty a) a.
  Proof. apply oequiv_eq; [reflexivity|]. intros pre s Hs. apply followed_nothing. Qed.
  Lemma o_cat_assoc a b d : oequiv (RCat a (RCat b d)) (RCat (RCat a b) d).
  Proof. apply oequiv_eq; [cbn; rewrite !app_length; lia|]. intros pre s Hs. apply followed_assoc. Qed.
  Lemma o_mk_cat_cons r l : oequiv (mk_cat (r :: l)) (RCat r (mk_cat l)).
  Proof. destruct l; [apply oequiv_sym, o_cat_nil|apply oequiv_refl]. Qed.
  Lemma o_mk_cat_app l l' : oequiv (mk_cat (l ++ l')) (RCat (mk_cat l) (mk_cat l')).
  Proof.
    apply oequiv_eq; [cbn; rewrite !groups_mk_cat, flat_map_app, !app_length; reflexivity|]. intros pre s Hs. apply ways_app.
  Qed.
  Lemma o_mk_cat_ext l l' : Forall2 oequiv l l' -> oequiv (mk_cat l) (mk_cat l').
  Proof.
    induction 1 as [|x y l l' Hx Hl IH]; [apply oequiv_refl|]. eapply oequiv_trans; [apply o_mk_cat_cons|].
    eapply oequiv_trans; [apply oequiv_cat; [exact Hx|exact IH]|]. apply oequiv_sym, o_mk_cat_cons.
  Qed.

  (** A regex without groups that matches in at most one way. *)
  Definition single (a : re) : Prop := groups a = [] /\ forall pre s, (List.length (ways a pre s) <= 1)%nat.
  Lemma single_cat a b : single a -> single b -> single (RCat a b).
  Proof.
    intros [Ga Ha] [Gb Hb]. split; [cbn; now rewrite Ga, Gb|]. intros pre s. cbn. specialize (Ha pre s).
    destruct (ways a pre s) as [|w [|w' l]]; cbn in Ha |- *; try lia. rewrite app_nil_r, map_length. apply Hb.
  Qed.
  Lemma single_mk_cat l : Forall single l -> single (mk_cat l).
  Proof.
    induction 1 as [|r l Hr Hl IH]; [split; [reflexivity|cbn; lia]|]. destruct l as [|r' l]; [exact Hr|]. now apply single_cat.
  Qed.
  Lemma single_char r P : groups r = [] -> (forall pre s, ways r pre s = one_char P pre s) -> single r.
  Proof. intros G H. split; [exact G|]. intros pre s. rewrite H. destruct s as [|c s]; cbn; [lia|]. destruct (P c); cbn; lia. Qed.
  Lemma single_look l : single (RLook l).
  Proof.
    split; [reflexivity|]. intros pre s. destruct l; cbn; [destruct pre|destruct s|destruct (word_boundary _ _ _)|destruct (word_boundary _ _ _)]; cbn; lia.
  Qed.
  Lemma o_alt_lift a b d : single a -> oequiv (RAlt (RCat a b) (RCat a d)) (RCat a (RAlt b d)).
  Proof.
    intros [Ga Ha]. assert (Na : no_captures a = []) by (unfold no_captures; now rewrite Ga).
    apply oequiv_eq; [cbn; now rewrite Ga|]. intros pre s Hs. cbn [Match.ways]. rewrite !nones_app, Na. cbn [app].
    specialize (Ha pre s). pose proof (way_caps a pre s) as Hc. rewrite Ga in Hc.
    destruct (ways a pre s) as [|w [|w' l]]; cbn in Ha; [reflexivity| |lia]. specialize (Hc w (or_introl eq_refl)).
    destruct w as [m q c]. cbn in Hc. destruct c; [|discriminate Hc]. cbn. rewrite !app_nil_r, !map_app, !map_map. reflexivity.
  Qed.
  Lemma o_ralt_lift a l : single a -> oequiv (ralt (map (RCat a) l)) (RCat a (ralt l)).
  Proof.
    intros Ha. induction l as [|b l IH]; cbn [map ralt fold_right].
    - apply oequiv_eq; [cbn; now rewrite (proj1 Ha)|]. intros pre s Hs. rewrite ways_rfail. cbn [Match.ways]. unfold followed.
      symmetry. induction (ways a pre s) as [|w l IH]; [reflexivity|]. cbn [flat_map]. now rewrite ways_rfail, IH.
    - eapply oequiv_trans; [apply oequiv_alt; [apply oequiv_refl|exact IH]|]. now apply o_alt_lift.
  Qed.
End Order.
