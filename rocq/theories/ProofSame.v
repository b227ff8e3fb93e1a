(** Expressions with the same regex. *)
From Verif Require Export ProofExpand4 ProofCaptures SpecSame.

(** ** Reading an expression off its regex *)
Fixpoint un_cat (r : re) : list re :=
  match r with REmpty => [] | RCat a b => a :: un_cat b | r => [r] end.
Fixpoint un_alt (r : re) : list re :=
  match r with RAlt a b => a :: un_alt b | r => [r] end.
Definition un_lit (r : re) : char := match r with RLit c => c | _ => 0 end.
Definition piece_of (r : re) : piece :=
  match r with RRep _ _ _ r => Maybe (map un_lit (un_cat r)) | r => Char (un_lit r) end.
Definition part_of (r : re) : part :=
  match r with
  | RCap _ (RAlt _ _) => Param (s_ "int")
  | RCap _ (RCat _ _) => Param (s_ "float")
  | RCap _ (RRep _ _ _ RDot) => Param []
  | RCap _ _ => Param (s_ "word")
  | RAlt (RCat _ (RCat (RCap _ _) _)) _ => Param (s_ "string")
  | RAlt _ _ => OneOf (map (fun b => map piece_of (un_cat b)) (un_alt r))
  | r => Piece (piece_of r)
  end.

Definition atom (r : re) : Prop := match r with REmpty | RCat _ _ => False | _ => True end.
Lemma un_cat_mk l : Forall atom l -> un_cat (mk_cat l) = l.
Proof.
  induction 1 as [|r l Hr _ IH]; [reflexivity|]. destruct l as [|r' l].
  - cbn. now destruct r.
  - change (mk_cat (r :: r' :: l)) with (RCat r (mk_cat (r' :: l))). cbn [un_cat]. now rewrite IH.
Qed.
Lemma un_alt_mk l : l <> [] -> Forall (fun r => match r with RAlt _ _ => False | _ => True end) l ->
  un_alt (mk_alt l) = l.
Proof.
  intros Hne H. induction H as [|r l Hr _ IH]; [easy|]. destruct l as [|r' l].
  - cbn. now destruct r.
  - change (mk_alt (r :: r' :: l)) with (RAlt r (mk_alt (r' :: l))). cbn [un_alt]. now rewrite IH.
Qed.
Lemma atoms_lits t : Forall atom (map RLit t).
Proof. apply Forall_map, Forall_forall. easy. Qed.
Lemma un_lits t : map un_lit (un_cat (mk_cat (map RLit t))) = t.
Proof. rewrite un_cat_mk by apply atoms_lits. rewrite map_map. apply map_id. Qed.

Section Decode.
  Context {I : Type} (elements : I -> str).
  Notation strip := (map_alternative elements).
  Lemma decode_alternative a : map piece_of (re_alternative elements a) = pieces (strip a).
  Proof.
    destruct a as [o|t]; cbn [re_alternative map_alternative pieces map_optional opt_input].
    - unfold re_optional. cbn [map piece_of]. unfold re_text. now rewrite un_lits.
    - unfold re_text. now rewrite map_map.
  Qed.
  Lemma atoms_alternative a : Forall atom (re_alternative elements a).
  Proof. destruct a; cbn; [now repeat constructor|apply atoms_lits]. Qed.
  Lemma atoms_branch b : Forall atom (flat_map (re_alternative elements) b).
  Proof.
    induction b as [|a b IH]; cbn [flat_map]; [constructor|]. apply Forall_app.
    split; [apply atoms_alternative|assumption].
  Qed.
  Lemma decode_branch b : map piece_of (un_cat (re_branch elements b)) = flat_map pieces (map strip b).
  Proof.
    unfold re_branch. rewrite un_cat_mk by apply atoms_branch.
    induction b as [|a b IH]; [reflexivity|]. cbn [flat_map map]. now rewrite map_app, IH, decode_alternative.
  Qed.
  (** No branch is an alternation or holds a group. *)
  Lemma plain_branch b : match re_branch elements b with
    | RAlt _ _ | RCap _ _ | RCat _ (RCat (RCap _ _) _) => False | _ => True end.
  Proof.
    unfold re_branch.
    assert (H : Forall (fun r => match r with RLit _ | RRep _ _ _ _ => True | _ => False end)
                  (flat_map (re_alternative elements) b)).
    { induction b as [|a b IH]; cbn [flat_map]; [constructor|]. apply Forall_app. split; [|assumption].
      destruct a; cbn; [now repeat constructor|]. apply Forall_map, Forall_forall. easy. }
    destruct H as [|r l Hr [|r' l' Hr' [|r'' l'' Hr'' _]]]; [exact Logic.I| | |];
      cbn; destruct r; try easy; now destruct r'.
  Qed.
  Lemma decode_alternation a : (2 <= List.length a)%nat ->
    part_of (re_alternation elements a) = OneOf (map (flat_map pieces) (map_alternation elements a)).
  Proof.
    intros H. destruct a as [|b1 [|b2 a]]; [cbn in H; lia|cbn in H; lia|]. unfold re_alternation.
    assert (E : un_alt (mk_alt (map (re_branch elements) (b1 :: b2 :: a))) = map (re_branch elements) (b1 :: b2 :: a)).
    { apply un_alt_mk; [easy|]. apply Forall_map, Forall_forall. intros b _. pose proof (plain_branch b) as P.
      now destruct (re_branch elements b). }
    set (r := mk_alt (map (re_branch elements) (b1 :: b2 :: a))) in *.
    assert (P : part_of r = OneOf (map (fun b => map piece_of (un_cat b)) (un_alt r))).
    { unfold r. cbn [map]. change (mk_alt (?x :: ?y :: ?l)) with (RAlt x (mk_alt (y :: l))).
      pose proof (plain_branch b1) as P. cbn [part_of].
      destruct (re_branch elements b1) as [| | | | | | |x y|]; try reflexivity.
      destruct y as [| | | | | | |z w|]; try reflexivity. destruct z; try reflexivity. easy. }
    rewrite P, E, map_map. unfold map_alternation. rewrite map_map. f_equal. apply map_ext.
    intros b. apply decode_branch.
  Qed.
  Lemma decode_parameter p : built_in (name elements p) ->
    map part_of (builtin_re elements p) = [Param (name elements p)].
  Proof.
    intros H. unfold builtin_re. cbn [map].
    destruct (str_eqb (name elements p) (s_ "int")) eqn:E1; [apply str_eqb_eq in E1; now rewrite E1|].
    destruct (str_eqb (name elements p) (s_ "float")) eqn:E2; [apply str_eqb_eq in E2; now rewrite E2|].
    destruct (str_eqb (name elements p) (s_ "word")) eqn:E3; [apply str_eqb_eq in E3; now rewrite E3|].
    destruct (str_eqb (name elements p) (s_ "string")) eqn:E4; [apply str_eqb_eq in E4; now rewrite E4|].
    apply str_eqb_neq in E1, E2, E3, E4. unfold built_in in H. cbn [In] in H.
    assert (E : name elements p = []) by intuition congruence. now rewrite E.
  Qed.
  Definition long (x : single_expression I) : Prop :=
    match x with ExAlternation a => (2 <= List.length a)%nat | _ => True end.
  Lemma decode_expression e : Forall long e -> all_built_in elements e ->
    map part_of (flat_map (re_single elements (builtin_re elements)) e) = unspelled (map_expression elements e).
  Proof.
    induction 1 as [|x e Hx _ IH]; intros He; [reflexivity|].
    unfold all_built_in in *. change (x :: e) with ([x] ++ e) in He. rewrite parameters_app in He.
    apply Forall_app in He as [Hp He].
    unfold unspelled in *. cbn [flat_map map_expression map]. rewrite map_app, (IH He).
    f_equal. destruct x as [a|o|p|t|w]; cbn [re_single map_single parts].
    - cbn [map]. now rewrite decode_alternation.
    - cbn. unfold re_text. now rewrite un_lits.
    - rewrite decode_parameter; [reflexivity|]. now apply Forall_inv in Hp.
    - unfold re_text. now rewrite map_map.
    - unfold re_text. now rewrite map_map.
  Qed.
  Lemma atoms_expression e : Forall long e ->
    Forall atom (flat_map (re_single elements (builtin_re elements)) e).
  Proof.
    induction 1 as [|x e Hx _ IH]; cbn [flat_map]; [constructor|]. apply Forall_app. split; [|assumption].
    destruct x as [a|o|p|t|w]; cbn [re_single]; try apply atoms_lits.
    - constructor; [|constructor]. cbn in Hx. destruct a as [|b1 [|b2 a]]; [cbn in Hx; lia|cbn in Hx; lia|exact Logic.I].
    - now repeat constructor.
    - unfold builtin_re. constructor; [|constructor].
      destruct (str_eqb _ _); [exact Logic.I|]. destruct (str_eqb _ _); [exact Logic.I|].
      destruct (str_eqb _ _); [exact Logic.I|]. destruct (str_eqb _ _); exact Logic.I.
  Qed.
  Lemma decode_regex e : Forall long e -> all_built_in elements e ->
    map part_of (removelast (tl (un_cat (re_of elements e)))) = unspelled (map_expression elements e).
  Proof.
    intros H1 H2. unfold re_of, re_by. rewrite un_cat_mk.
    - cbn [tl]. rewrite removelast_last. now apply decode_expression.
    - constructor; [exact Logic.I|]. apply Forall_app. split; [now apply atoms_expression|]. now repeat constructor.
  Qed.

  (** ** Writing the regex of an expression without its spelling *)
  Definition piece_text (x : piece) : str :=
    match x with Char c => quote c | Maybe t => s_ "(?:" ++ flat_map quote t ++ s_ ")?" end.
  Fixpoint parts_text (k : N) (l : list part) : str :=
    match l with
    | [] => []
    | Piece x :: l' => piece_text x ++ parts_text k l'
    | OneOf a :: l' =>
        (s_ "(?:" ++ removelast (flat_map (fun b => flat_map piece_text b ++ s_ "|") a) ++ s_ ")") ++ parts_text k l'
    | Param n :: l' => builtin_text (fun t => t) (mkParameter n k) ++ parts_text (k + 1) l'
    end.
  Lemma chars_text t : flat_map piece_text (map Char t) = flat_map quote t.
  Proof. induction t as [|c t IH]; [reflexivity|]. cbn. now rewrite IH. Qed.
  Lemma alternative_parts a : alternative_text elements a = flat_map piece_text (pieces (strip a)).
  Proof.
    destruct a as [o|t]; cbn [alternative_text map_alternative pieces map_optional opt_input].
    - cbn [flat_map]. rewrite app_nil_r. unfold optional_text, text_of. now rewrite escape_for_regex_eq.
    - unfold text_of. now rewrite escape_for_regex_eq, chars_text.
  Qed.
  Lemma branch_parts b : branch_text elements b = flat_map piece_text (flat_map pieces (map strip b)).
  Proof.
    unfold branch_text. induction b as [|a b IH]; [reflexivity|]. cbn [flat_map map].
    now rewrite flat_map_app, IH, alternative_parts.
  Qed.
  Lemma text_parts k t l : parts_text k (map (fun c => Piece (Char c)) t ++ l) = flat_map quote t ++ parts_text k l.
  Proof. induction t as [|c t IH]; [reflexivity|]. cbn. now rewrite IH, app_assoc. Qed.
  Lemma flat_map_map {A B C} (g : A -> B) (h : B -> list C) l : flat_map h (map g l) = flat_map (fun x => h (g x)) l.
  Proof. induction l as [|x l IH]; [reflexivity|]. cbn. now rewrite IH. Qed.
  Lemma expression_parts e : forall k, ids e = count_from k (List.length (ids e)) ->
    flat_map (single_text elements (builtin_text elements)) e = parts_text k (unspelled (map_expression elements e)).
  Proof.
    unfold unspelled. induction e as [|x e IH]; intros k H; [reflexivity|].
    cbn [flat_map map_expression map].
    destruct x as [a|o|p|t|w]; cbn [single_text map_single parts];
      try (change (ids (_ :: e)) with (ids e) in H).
    - cbn [app parts_text]. rewrite <- IH by assumption. f_equal. unfold alternation_text, map_alternation.
      rewrite map_map, flat_map_map. do 3 f_equal. apply flat_map_ext_in. intros b _. now rewrite branch_parts.
    - cbn [app parts_text]. rewrite <- IH by assumption. f_equal. cbn [piece_text].
      unfold optional_text, text_of. now rewrite escape_for_regex_eq.
    - change (ids (ExParameter p :: e)) with (par_id p :: ids e) in H. cbn [List.length count_from] in H.
      injection H as H1 H2. cbn [app parts_text].
      change (map (map_single elements) e) with (map_expression elements e). rewrite <- (IH (k + 1)) by assumption. f_equal.
      unfold builtin_text, name. cbn [par_input par_id map_parameter]. now rewrite H1.
    - rewrite text_parts, <- IH by assumption. f_equal. apply escape_for_regex_eq.
    - rewrite text_parts, <- IH by assumption. f_equal. apply escape_for_regex_eq.
  Qed.
End Decode.

Lemma parsed_long s e : addressable s -> expression_parse s = RetOk e -> Forall long e.
Proof.
  intros Hs H. destruct (parsed_wf s e Hs H) as [(Hw & _) _]. unfold map_expression in Hw. rewrite Forall_map in Hw.
  revert Hw. apply Forall_impl. intros [a|o|p|t|w]; cbn; try easy.
  intros [Ha _]. unfold map_alternation in Ha. now rewrite map_length in Ha.
Qed.
Lemma same_regex s1 s2 e1 e2 t1 t2 r1 r2 : addressable s1 -> addressable s2 ->
  expression_parse s1 = RetOk e1 -> expression_parse s2 = RetOk e2 ->
  expression_regex s1 = XOk t1 r1 -> expression_regex s2 = XOk t2 r2 ->
  (t1 = t2 <-> unspelled (map_expression frag e1) = unspelled (map_expression frag e2)) /\
  (r1 = r2 <-> unspelled (map_expression frag e1) = unspelled (map_expression frag e2)).
Proof.
  intros A1 A2 P1 P2 R1 R2.
  destruct (regex_inv _ _ _ _ A1 P1 R1) as (B1 & -> & ->). destruct (regex_inv _ _ _ _ A2 P2 R2) as (B2 & -> & ->).
  pose proof (parsed_long _ _ A1 P1) as L1. pose proof (parsed_long _ _ A2 P2) as L2.
  assert (Hr : re_of frag e1 = re_of frag e2 -> unspelled (map_expression frag e1) = unspelled (map_expression frag e2)).
  { intros E. rewrite <- (decode_regex frag e1 L1 B1), <- (decode_regex frag e2 L2 B2). now rewrite E. }
  assert (Ht : builtin_regex frag e1 = builtin_regex frag e2 -> re_of frag e1 = re_of frag e2).
  { intros E. pose proof (parse_builtin frag e1) as Q1. pose proof (parse_builtin frag e2) as Q2.
    rewrite E, Q2 in Q1. now injection Q1. }
  assert (Hu : unspelled (map_expression frag e1) = unspelled (map_expression frag e2) ->
    builtin_regex frag e1 = builtin_regex frag e2).
  { intros E. unfold builtin_regex, text_by.
    rewrite (expression_parts frag e1 0) by exact (ids_count _ _ A1 P1).
    rewrite (expression_parts frag e2 0) by exact (ids_count _ _ A2 P2). now rewrite E. }
  tauto.
Qed.

(** ** The text of the regex *)
Lemma join_bars {A} (f : A -> str) a : a <> [] ->
  removelast (flat_map (fun b => f b ++ s_ "|") a) = join (s_ "|") (map f a).
Proof.
  induction a as [|b a IH]; intros Hn; [easy|]. destruct a as [|b' a].
  - cbn [flat_map map join]. rewrite app_nil_r. apply removelast_last.
  - change (flat_map (fun b => f b ++ s_ "|") (b :: b' :: a)) with ((f b ++ s_ "|") ++ flat_map (fun b => f b ++ s_ "|") (b' :: a)).
    rewrite removelast_app.
    + rewrite IH by easy. rewrite <- app_assoc. reflexivity.
    + cbn [flat_map]. destruct (f b'); discriminate.
Qed.
Definition good_part (x : part) : Prop :=
  match x with OneOf a => a <> [] | Param n => built_in n | Piece _ => True end.
Lemma parts_written l : Forall good_part l -> forall k, written k l (parts_text k l).
Proof.
  induction 1 as [|x l Hx _ IH]; intros k; [constructor|].
  destruct x as [x|a|n]; cbn [parts_text].
  - constructor. apply IH.
  - rewrite (join_bars (flat_map piece_text)) by assumption. rewrite <- !app_assoc.
    apply (written_one_of k a l). apply IH.
  - unfold good_part, built_in in Hx. cbn [In] in Hx. unfold builtin_text, name. cbn [par_input par_id].
    destruct Hx as [<-|[<-|[<-|[<-|[<-|[]]]]]].
    + apply written_int, IH.
    + apply written_float, IH.
    + apply written_word, IH.
    + change (str_eqb _ (s_ "int")) with false. change (str_eqb _ (s_ "float")) with false.
      change (str_eqb _ (s_ "word")) with false. change (str_eqb _ (s_ "string")) with true. cbn iota.
      unfold string_regex. rewrite <- !app_assoc. apply written_string; [apply dec_decimal|apply IH].
    + apply written_anonymous, IH.
Qed.
Lemma parts_good e : Forall long e -> all_built_in frag e -> Forall good_part (unspelled (map_expression frag e)).
Proof.
  unfold unspelled. induction 1 as [|x e Hx _ IH]; intros He; [constructor|].
  unfold all_built_in in *. change (x :: e) with ([x] ++ e) in He. rewrite parameters_app in He.
  apply Forall_app in He as [Hp He]. cbn [map_expression map flat_map]. apply Forall_app. split; [|now apply IH].
  destruct x as [a|o|p|t|w]; cbn [map_single parts].
  - constructor; [|constructor]. destruct a; [cbn in Hx; lia|easy].
  - now repeat constructor.
  - constructor; [|constructor]. now apply Forall_inv in Hp.
  - apply Forall_map, Forall_forall. easy.
  - apply Forall_map, Forall_forall. easy.
Qed.
Lemma regex_written s e t r : addressable s -> expression_parse s = RetOk e -> expression_regex s = XOk t r ->
  exists u, written 0 (unspelled (map_expression frag e)) u /\ t = s_ "^" ++ u ++ s_ "$".
Proof.
  intros A P R. destruct (regex_inv _ _ _ _ A P R) as (B & -> & ->). eexists. split.
  - apply parts_written, parts_good; [now apply (parsed_long s)|assumption].
  - unfold builtin_regex, text_by. now rewrite (expression_parts frag e 0) by exact (ids_count _ _ A P).
Qed.
Lemma written_unique k l t : written k l t -> forall t', written k l t' -> t = t'.
Proof.
  induction 1; intros t' H'; inversion H'; subst; try reflexivity; try (now rewrite (IHwritten _ ltac:(eassumption))).
  rewrite (IHwritten _ ltac:(eassumption)), (decimal_unique k n n0) by assumption. reflexivity.
Qed.
