(** The regexes of expressions: their translation to [Hir] keeps the order, unless an alternation has branches
    that all begin with the same optional. *)
From Coq Require Import PeanoNat.
From Verif Require Export SpecHir ProofOrder2 ProofSame.

(** ** Branches as [Hir] *)
Definition re_piece (x : piece) : re :=
  match x with Char c => RLit c | Maybe t => RRep 0 (Some 1) true (mk_cat (map RLit t)) end.
Fixpoint hirs (b : list piece) : list hir :=
  match b with
  | [] => []
  | Char c :: b' => match hirs b' with HLit t :: l => HLit (c :: t) :: l | l => HLit [c] :: l end
  | Maybe t :: b' => HRep 0 (Some 1) true (h_literal t) :: hirs b'
  end.
Definition hir_of (b : list piece) : hir :=
  match hirs b with [] => HEmpty | [h] => h | l => HCat l end.

Lemma rep_optional g h : h_repetition 0 (Some 1) g h = HRep 0 (Some 1) g h.
Proof. unfold h_repetition. destruct (only_empty h); reflexivity. Qed.
Lemma hirs_forms b : Forall (fun h => (exists t, h = HLit t) \/ exists t, h = HRep 0 (Some 1) true (h_literal t)) (hirs b).
Proof.
  induction b as [|[c|t] b IH]; cbn [hirs]; [constructor| |constructor; [right; now eexists|exact IH]].
  destruct (hirs b) as [|h l]; [constructor; [left; now eexists|constructor]|]. inversion_clear IH as [|? ? Hh Hl].
  destruct Hh as [[u ->]|[u ->]].
  - constructor; [left; now eexists|exact Hl].
  - constructor; [left; now eexists|]. constructor; [right; now eexists|exact Hl].
Qed.
Lemma flatten_hirs b : flatten_cat (hirs b) = hirs b.
Proof.
  unfold flatten_cat. induction (hirs_forms b) as [|h l Hh Hl IH]; [reflexivity|]. cbn [flat_map]. rewrite IH.
  destruct Hh as [[u ->]|[u ->]]; reflexivity.
Qed.
Lemma flatten_hir_of b : flatten_cat [hir_of b] = hirs b.
Proof.
  unfold hir_of. pose proof (hirs_forms b) as H. destruct (hirs b) as [|h [|h' l]]; [reflexivity| |].
  - inversion_clear H as [|? ? Hh Hl]. destruct Hh as [[u ->]|[u ->]]; reflexivity.
  - cbn. now rewrite app_nil_r.
Qed.
Lemma join_hirs b : join_literals [] (hirs b) = hirs b /\ forall t, t <> [] ->
  join_literals t (hirs b) = match hirs b with HLit u :: m => HLit (t ++ u) :: m | m => HLit t :: m end.
Proof.
  assert (Hflush : forall t, t <> [] -> flush t = [HLit t]) by (intros [|c t]; easy).
  induction b as [|[c|o] b [IH1 IH2]]; cbn [hirs].
  - split; [reflexivity|]. intros t Ht. cbn. now rewrite Hflush.
  - assert (H : forall t, join_literals t (match hirs b with HLit t :: l => HLit (c :: t) :: l | l => HLit [c] :: l end) =
      join_literals (t ++ [c]) (hirs b)).
    { intros t. destruct (hirs b) as [|h l]; [reflexivity|]. destruct h; try reflexivity. cbn [join_literals]. now rewrite <- app_assoc. }
    split; [rewrite H; cbn [app]; rewrite IH2 by easy|intros t Ht; rewrite H, IH2 by (now destruct t)]; destruct (hirs b) as [|[] l]; try reflexivity.
    now rewrite <- app_assoc.
  - cbn [join_literals]. rewrite IH1. split; [reflexivity|]. intros t Ht. now rewrite Hflush.
Qed.
Lemma concat_hirs b : h_concat (hirs b) = hir_of b.
Proof. unfold h_concat. rewrite flatten_hirs, (proj1 (join_hirs b)). reflexivity. Qed.
Definition hir_piece (x : piece) : hir :=
  match x with Char c => HLit [c] | Maybe t => HRep 0 (Some 1) true (h_literal t) end.
Lemma concat_piece x b : h_concat [hir_piece x; hir_of b] = hir_of (x :: b).
Proof.
  assert (E : flatten_cat [hir_piece x; hir_of b] = hir_piece x :: hirs b).
  { rewrite <- (flatten_hir_of b). now destruct x. }
  unfold h_concat. rewrite E. unfold hir_of. f_equal. destruct (join_hirs b) as [H1 H2]. destruct x as [c|t]; cbn [hir_piece join_literals].
  - cbn [app]. rewrite H2 by easy. cbn [hirs]. now destruct (hirs b) as [|[] l].
  - cbn [flush app hirs]. now rewrite H1.
Qed.

Section Translate.
  Context (digits spaces words : ranges).
  Notation branches := (branches digits spaces words).
  Lemma branches_lits t i : branches (mk_cat (map RLit t)) i = ([h_literal t], i).
  Proof.
    induction t as [|c t IH]; [reflexivity|]. destruct t as [|c' t]; [reflexivity|].
    change (mk_cat (map RLit (c :: c' :: t))) with (RCat (RLit c) (mk_cat (map RLit (c' :: t)))).
    cbn [Hir.branches]. rewrite IH. reflexivity.
  Qed.
  Lemma branches_piece x i : branches (re_piece x) i = ([hir_piece x], i).
  Proof.
    destruct x as [c|t]; [reflexivity|]. cbn [re_piece Hir.branches]. rewrite branches_lits. cbn [join_alts]. now rewrite rep_optional.
  Qed.
  Lemma branches_pieces b i : branches (mk_cat (map re_piece b)) i = ([hir_of b], i).
  Proof.
    induction b as [|x b IH]; [reflexivity|]. destruct b as [|y b].
    - cbn [map mk_cat]. rewrite branches_piece. now destruct x.
    - change (mk_cat (map re_piece (x :: y :: b))) with (RCat (re_piece x) (mk_cat (map re_piece (y :: b)))).
      cbn [Hir.branches]. rewrite branches_piece, IH. cbn [join_alts]. now rewrite concat_piece.
  Qed.
  Lemma branches_one_of bs i : bs <> [] -> branches (mk_alt (map (fun b => mk_cat (map re_piece b)) bs)) i = (map hir_of bs, i).
  Proof.
    induction bs as [|b bs IH]; [easy|]. intros _. destruct bs as [|b' bs].
    - cbn [map mk_alt]. apply branches_pieces.
    - change (mk_alt _) with (RAlt (mk_cat (map re_piece b)) (mk_alt (map (fun b => mk_cat (map re_piece b)) (b' :: bs)))).
      cbn [Hir.branches]. rewrite branches_pieces, IH by easy. reflexivity.
  Qed.
End Translate.

(** ** What alternations share *)
Lemma hirs_lit b t l : hirs b = HLit t :: l -> exists b', b = map Char t ++ b' /\ hirs b' = l.
Proof.
  revert t l. induction b as [|[c|o] b IH]; intros t l; cbn [hirs]; [discriminate| |discriminate].
  destruct (hirs b) as [|h m] eqn:E.
  - intros H. assert (t = [c]) as -> by congruence. assert (l = []) as -> by congruence. now exists b.
  - assert (Hother : HLit [c] :: h :: m = HLit t :: l -> exists b', Char c :: b = map Char t ++ b' /\ hirs b' = l).
    { intros H. assert (t = [c]) as -> by congruence. assert (l = h :: m) as -> by congruence. now exists b. }
    destruct h; try exact Hother. intros H. assert (t = c :: t0) as -> by congruence. assert (l = m) as -> by congruence.
    destruct (IH t0 m eq_refl) as (b' & -> & Hb'). now exists b'.
Qed.
Lemma hirs_rep b x l : hirs b = HRep 0 (Some 1) true x :: l -> exists o b', b = Maybe o :: b' /\ x = h_literal o /\ hirs b' = l.
Proof.
  destruct b as [|[c|o] b]; cbn [hirs]; [discriminate|now destruct (hirs b) as [|[] m]|].
  intros H. exists o, b. repeat split; congruence.
Qed.
Lemma hirs_no_two b t u l : hirs b <> HLit t :: HLit u :: l.
Proof.
  revert t u l. induction b as [|[c|o] b IH]; intros t u l; cbn [hirs]; [discriminate| |discriminate].
  destruct (hirs b) as [|h m]; [discriminate|]. destruct h; intros H; congruence.
Qed.
Lemma literal_inj t u : h_literal t = h_literal u -> t = u.
Proof. destruct t, u; cbn; congruence. Qed.
Lemma all_concat bs cs : all_some as_concat (map hir_of bs) = Some cs -> cs = map hirs bs.
Proof.
  revert cs. induction bs as [|b bs IH]; intros cs; cbn [map all_some]; [now intros [= <-]|].
  assert (H : as_concat (hir_of b) = Some (hirs b) \/ as_concat (hir_of b) = None).
  { unfold hir_of. pose proof (hirs_forms b) as F. destruct (hirs b) as [|h [|h' l]]; [now right| |now left].
    inversion_clear F as [|? ? Hh Hl]. right. destruct Hh as [[u ->]|[u ->]]; reflexivity. }
  destruct H as [-> | ->]; [|discriminate]. destruct (all_some as_concat (map hir_of bs)) as [m|]; [|discriminate].
  intros [= <-]. now rewrite (IH m eq_refl).
Qed.
Lemma flatten_alt_hirs bs : flatten_alt (map hir_of bs) = map hir_of bs.
Proof.
  unfold flatten_alt. induction bs as [|b bs IH]; [reflexivity|]. cbn [map flat_map]. rewrite IH.
  unfold hir_of. pose proof (hirs_forms b) as F. destruct (hirs b) as [|h [|h' l]]; [reflexivity| |reflexivity].
  inversion_clear F as [|? ? Hh Hl]. destruct Hh as [[u ->]|[u ->]]; reflexivity.
Qed.
Lemma calm_hirs fuel : forall bs, ~ shared_optional bs -> calm_alternation fuel (map hir_of bs).
Proof.
  induction fuel as [|fuel IH]; intros bs Hs; cbn [calm_alternation]; rewrite flatten_alt_hirs.
  - destruct (map hir_of bs) as [|h1 [|h2 l]]; [exact I|exact I|]. destruct (all_some as_char _); [exact I|].
    destruct (all_some as_class _); [exact I|]. destruct (all_some as_concat _) as [[|]|]; exact I.
  - destruct bs as [|b1 [|b2 bs]]; [exact I|exact I|]. cbn [map]. change (hir_of b1 :: hir_of b2 :: map hir_of bs) with (map hir_of (b1 :: b2 :: bs)).
    destruct (all_some as_char _); [exact I|]. destruct (all_some as_class _); [exact I|].
    destruct (all_some as_concat _) as [cs|] eqn:E; [|exact I]. apply all_concat in E. subst cs.
    change (map hirs (b1 :: b2 :: bs)) with (hirs b1 :: map hirs (b2 :: bs)). cbv iota.
    pose proof (common_all (map hirs (b2 :: bs)) (hirs b1)) as Hp.
    destruct (fold_left common (map hirs (b2 :: bs)) (hirs b1)) as [|x p]; [exact I|].
    change (hirs b1 :: map hirs (b2 :: bs)) with (map hirs (b1 :: b2 :: bs)) in *.
    change (h_concat (skipn (List.length (x :: p)) (hirs b1)) :: map ?f (map hirs (b2 :: bs))) with (map f (map hirs (b1 :: b2 :: bs))).
    revert Hs Hp. assert (Hne : b1 :: b2 :: bs <> []) by easy. revert Hne. generalize (b1 :: b2 :: bs). clear b1 b2 bs. intros bs Hne Hs Hp.
    assert (Hform : forall q y, (forall b, In b bs -> exists r, hirs b = q ++ y :: r) ->
      (exists t, y = HLit t) \/ exists t, y = HRep 0 (Some 1) true (h_literal t)).
    { intros q y H. destruct bs as [|b bs]; [easy|]. destruct (H b (or_introl eq_refl)) as [r Hr].
      pose proof (hirs_forms b) as F. rewrite Hr, Forall_app in F. now inversion F as [_ F2]; inversion F2. }
    rewrite Forall_forall in Hp.
    assert (Hq : forall b, In b bs -> exists r, hirs b = x :: p ++ r).
    { intros b Hb. destruct (Hp (hirs b)) as [r Hr]; [now apply in_map|]. now exists r. }
    clear Hp. destruct (Hform [] x) as [[t ->]|[o ->]]; [intros b Hb; destruct (Hq b Hb) as [r Hr]; now exists (p ++ r)| |].
    + destruct p as [|y p].
      * split; [reflexivity|].
        assert (H : exists ls, bs = map (fun l => map Char t ++ l) ls /\
          map (fun x => h_concat (skipn (List.length [HLit t]) x)) (map hirs bs) = map hir_of ls).
        { clear - Hq. induction bs as [|b bs IH]; [now exists []|].
          destruct IH as (ls & -> & E); [intros b' Hb'; apply Hq; now right|].
          destruct (Hq b (or_introl eq_refl)) as [r Hr]. pose proof Hr as Hr'. apply hirs_lit in Hr as (l & -> & El).
          exists (l :: ls). split; [reflexivity|]. cbn [map]. rewrite E. f_equal. rewrite Hr', <- (concat_hirs l), El. reflexivity. }
        destruct H as (ls & -> & E). rewrite E. apply IH. intros (t' & o & H). apply Hs. exists (t ++ t'), o.
        apply Forall_map. eapply Forall_impl; [|exact H]. intros l [r ->]. exists r. now rewrite map_app, <- app_assoc.
      * exfalso. destruct (Hform [HLit t] y) as [[u ->]|[o ->]]; [intros b Hb; destruct (Hq b Hb) as [r Hr]; now exists (p ++ r)| |].
        -- destruct bs as [|b bs]; [easy|]. destruct (Hq b (or_introl eq_refl)) as [r Hr]. now apply hirs_no_two in Hr.
        -- apply Hs. exists t, o. apply Forall_forall. intros b Hb. destruct (Hq b Hb) as [r Hr]. apply hirs_lit in Hr as (l & -> & Hl).
           apply hirs_rep in Hl as (o' & b' & -> & Ho & _). apply literal_inj in Ho as ->. now exists b'.
    + exfalso. apply Hs. exists [], o. apply Forall_forall. intros b Hb. destruct (Hq b Hb) as [r Hr].
      apply hirs_rep in Hr as (o' & b' & -> & Ho & _). apply literal_inj in Ho as ->. now exists b'.
Qed.
Lemma calm_one_of bs : ~ shared_optional bs -> calm_alts (map hir_of bs).
Proof. intros H. unfold calm_alts. destruct bs as [|b1 [|b2 bs]]; [now apply calm_hirs|exact I|]. cbn [map]. now apply (calm_hirs _ (b1 :: b2 :: bs)). Qed.

(** ** Expressions *)
Section Calm.
  Context (digits spaces words : ranges).
  Notation branches := (branches digits spaces words).
  Notation calm_in := (calm_in digits spaces words).
  (** Calm wherever it stands. *)
  Definition calm_any (r : re) : Prop := forall i, calm_in r i /\ calm_alts (fst (branches r i)).
  Definition is_alt (r : re) : bool := match r with RAlt _ _ => true | _ => false end.
  Lemma branches_single r i : is_alt r = false -> exists h j, branches r i = ([h], j).
  Proof.
    destruct r; try discriminate; intros _; cbn [Hir.branches]; try (eexists _, _; reflexivity).
    - destruct (branches r i). eexists _, _; reflexivity.
    - destruct (branches r (i + 1)). eexists _, _; reflexivity.
    - destruct (branches r1 i) as [l j]. destruct (branches r2 j). eexists _, _; reflexivity.
  Qed.
  Lemma calm_single r : is_alt r = false -> (forall i, calm_in r i) -> calm_any r.
  Proof. intros Hr H i. split; [apply H|]. destruct (branches_single r i Hr) as (h & j & ->). exact I. Qed.
  Lemma calm_cat a b : calm_any a -> calm_any b -> calm_any (RCat a b).
  Proof. intros Ha Hb. apply calm_single; [reflexivity|]. intros i. cbn. split; [apply Ha|apply Hb]. Qed.
  Lemma calm_rep min max g a : calm_any a -> calm_any (RRep min max g a).
  Proof. intros Ha. apply calm_single; [reflexivity|]. intros i. apply Ha. Qed.
  Lemma calm_cap n a : calm_any a -> calm_any (RCap n a).
  Proof. intros Ha. apply calm_single; [reflexivity|]. intros i. apply Ha. Qed.
  Lemma calm_mk_cat l : Forall calm_any l -> calm_any (mk_cat l).
  Proof.
    induction 1 as [|r l Hr Hl IH]; [now apply calm_single|]. destruct l as [|r' l]; [exact Hr|]. now apply calm_cat.
  Qed.
  Lemma calm_lits t : Forall calm_any (map RLit t).
  Proof. apply Forall_map, Forall_forall. intros c _. now apply calm_single. Qed.
  Lemma calm_piece x : calm_any (re_piece x).
  Proof. destruct x as [c|t]; [now apply calm_single|]. apply calm_rep, calm_mk_cat, calm_lits. Qed.
  Lemma calm_re_one_of bs : ~ shared_optional bs -> bs <> [] -> calm_any (mk_alt (map (fun b => mk_cat (map re_piece b)) bs)).
  Proof.
    intros Hs Hne i. split; [|rewrite branches_one_of by exact Hne; now apply calm_one_of]. clear Hs.
    assert (Hb : forall b, calm_any (mk_cat (map re_piece b))).
    { intros b. apply calm_mk_cat, Forall_map, Forall_forall. intros x _. apply calm_piece. }
    revert i. induction bs as [|b bs IH]; [easy|]. intros i. destruct bs as [|b' bs]; [apply Hb|].
    change (mk_alt _) with (RAlt (mk_cat (map re_piece b)) (mk_alt (map (fun b => mk_cat (map re_piece b)) (b' :: bs)))).
    cbn [ProofOrder2.calm_in]. split; [apply Hb|now apply IH].
  Qed.
  (** The built-in parameters. *)
  Lemma not_empty_class k : only_empty (h_class k) = false.
  Proof. destruct k as [|[a b] [|y k]]; try reflexivity. cbn. now destruct (a =? b). Qed.
  Lemma class_many min g k : min <= 1 -> h_repetition min None g (h_class k) = HRep min None g (h_class k).
  Proof.
    intros H. unfold h_repetition. rewrite not_empty_class. cbn [opt_eqb]. now rewrite !andb_false_r.
  Qed.
  Lemma calm_alt a b : calm_any a -> (forall i, calm_in b i) -> (forall i, calm_alts (fst (branches (RAlt a b) i))) -> calm_any (RAlt a b).
  Proof. intros Ha Hb Hl i. split; [|apply Hl]. cbn. split; [apply Ha|apply Hb]. Qed.
  Lemma h_class_digit : class_ranges digits spaces words (mkClass false [CPerl false PDigit]) = canonical (digits ++ []).
  Proof. reflexivity. Qed.
  Ltac structural := repeat first [apply calm_cat | apply calm_rep | apply calm_cap | now apply calm_single].
  Lemma calm_int : calm_any re_int.
  Proof.
    apply calm_cap, calm_alt; [structural|intros i; apply calm_rep; structural|]. intros i. cbn [Hir.branches join_alts fst].
    rewrite class_many by lia. exact I.
  Qed.
  (** The first branch is not part of a concatenation, a class or a char. *)
  Definition apart (h : hir) : bool := match h with HLit (_ :: _ :: _) | HRep _ _ _ _ => true | _ => false end.
  Lemma calm_apart fuel h l : apart h = true -> calm_alternation fuel (h :: l).
  Proof.
    intros Hh. assert (E : flatten_alt (h :: l) = h :: flatten_alt l) by (destruct h; try discriminate Hh; reflexivity).
    assert (H1 : forall m, all_some as_char (h :: m) = None) by (intros m; destruct h as [|[|? [|? ?]]| | | | | |]; try discriminate Hh; reflexivity).
    assert (H2 : forall m, all_some as_class (h :: m) = None) by (intros m; destruct h; try discriminate Hh; reflexivity).
    assert (H3 : forall m, all_some as_concat (h :: m) = None) by (intros m; destruct h; try discriminate Hh; reflexivity).
    destruct fuel; cbn [calm_alternation]; rewrite E; destruct (flatten_alt l) as [|h' m]; try exact I; now rewrite H1, H2, H3.
  Qed.
  Lemma calm_alt_apart a b : calm_any a -> (forall i, calm_in b i) -> (forall i, apart (join_alts (fst (branches a i))) = true) -> calm_any (RAlt a b).
  Proof.
    intros Ha Hb H. apply calm_alt; [exact Ha|exact Hb|]. intros i. specialize (H i). cbn [Hir.branches]. destruct (branches a i) as [l j]. cbn [fst] in H.
    destruct (branches b j) as [m k]. cbn [fst]. unfold calm_alts. destruct m; [exact I|]. now apply calm_apart.
  Qed.
  Lemma calm_in_alt a b : calm_any a -> (forall i, calm_in b i) -> forall i, calm_in (RAlt a b) i.
  Proof. intros Ha Hb i. split; [apply Ha|apply Hb]. Qed.
  Lemma calm_any_in a : calm_any a -> forall i, calm_in a i.
  Proof. intros H i. apply H. Qed.
  Lemma calm_float : calm_any re_float.
  Proof.
    apply calm_cap, calm_cat; [structural|]. apply calm_alt_apart; [structural| |reflexivity].
    apply calm_in_alt; [structural|]. apply calm_any_in, calm_cat; [|structural].
    apply calm_alt_apart; [structural|apply calm_in_alt; [structural|apply calm_any_in; structural]|].
    intros i. cbn [Hir.branches fst join_alts]. now rewrite class_many by lia.
  Qed.
  Lemma calm_string id : calm_any (re_string id).
  Proof.
    apply calm_alt; [structural|apply calm_any_in; structural|]. intros i. cbn [Hir.branches].
    destruct (branches inside2 (i + 1)) as [l j]. destruct (branches inside1 (j + 1)) as [m k]. cbn [join_alts fst].
    generalize (join_alts l), (join_alts m). intros h h'. cbn. exact I.
  Qed.
  Lemma calm_word : calm_any re_word.
  Proof. structural. Qed.
  Lemma calm_anonymous : calm_any re_anonymous.
  Proof. structural. Qed.

  Context {I : Type} (text : I -> str).
  Notation strip := (map_alternative text).
  Lemma re_alternative_pieces a : re_alternative text a = map re_piece (pieces (strip a)).
  Proof.
    destruct a as [o|t]; cbn [re_alternative map_alternative pieces map_optional opt_input map re_piece]; [reflexivity|].
    unfold re_text. now rewrite map_map.
  Qed.
  Lemma re_branch_pieces b : re_branch text b = mk_cat (map re_piece (flat_map pieces (map strip b))).
  Proof.
    unfold re_branch. f_equal. induction b as [|a b IH]; [reflexivity|]. cbn [flat_map map]. now rewrite map_app, IH, re_alternative_pieces.
  Qed.
  Lemma re_alternation_pieces a :
    re_alternation text a = mk_alt (map (fun b => mk_cat (map re_piece b)) (map (flat_map pieces) (map_alternation text a))).
  Proof.
    unfold re_alternation, map_alternation. rewrite !map_map. f_equal. apply map_ext. intros b. apply re_branch_pieces.
  Qed.
  Lemma calm_builtin p : Forall calm_any (builtin_re text p).
  Proof.
    constructor; [|constructor]. destruct (str_eqb _ _); [apply calm_int|]. destruct (str_eqb _ _); [apply calm_float|].
    destruct (str_eqb _ _); [apply calm_word|]. destruct (str_eqb _ _); [apply calm_string|apply calm_anonymous].
  Qed.
  Lemma calm_element x : (forall bs, In (OneOf bs) (parts (map_single text x)) -> ~ shared_optional bs) ->
    Forall calm_any (re_single text (builtin_re text) x).
  Proof.
    intros H. destruct x as [a|o|p|t|t]; cbn [re_single].
    - constructor; [|constructor]. rewrite re_alternation_pieces. destruct a as [|b a]; [now apply calm_single|].
      apply calm_re_one_of; [|easy]. apply H. now left.
    - constructor; [|constructor]. apply calm_rep, calm_mk_cat, calm_lits.
    - apply calm_builtin.
    - apply calm_lits.
    - apply calm_lits.
  Qed.
  Lemma calm_expression e : unshared (map_expression text e) -> calm digits spaces words (re_of text e).
  Proof.
    intros H. apply (calm_mk_cat (RLook LStart :: flat_map (re_single text (builtin_re text)) e ++ [RLook LEnd])).
    constructor; [now apply calm_single|]. apply Forall_app. split; [|constructor; [now apply calm_single|constructor]].
    apply Forall_forall. intros r (x & Hx & Hr)%in_flat_map. revert r Hr. apply Forall_forall, calm_element.
    intros bs Hb. apply H. apply in_flat_map. exists (map_single text x). split; [|exact Hb]. now apply in_map.
  Qed.
End Calm.
