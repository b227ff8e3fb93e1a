(** The parser of Regex.v reads what the grammar of SpecSyntax.v derives. *)
From Coq Require Import PeanoNat.
From Verif Require Export ProofFrame SpecSyntax.

(** ** Characters *)
Lemma below_128 (P : char -> bool) : forallb (fun n => P (N.of_nat n)) (List.seq 0 128) = true ->
  forall c, c < 128 -> P c = true.
Proof.
  rewrite forallb_forall. intros H c Hc. rewrite <- (N2Nat.id c). apply H. apply in_seq. lia.
Qed.
Lemma all_below l c : forallb (fun d => d <? 128) l = true -> In c l -> c < 128.
Proof. rewrite forallb_forall. intros H Hc. apply N.ltb_lt. now apply H. Qed.
(** A boolean and a finite set of ASCII characters. *)
Lemma ascii_iff (P : char -> bool) (l : str) : forallb (fun d => d <? 128) l = true ->
  forallb (fun n => Bool.eqb (P (N.of_nat n)) (contains l (N.of_nat n))) (List.seq 0 128) = true ->
  (forall c, P c = true -> c < 128) -> forall c, P c = true <-> In c l.
Proof.
  intros Hl H HP c. assert (E : c < 128 -> P c = contains l c).
  { intros Hc. apply Bool.eqb_prop. now apply (below_128 (fun c => Bool.eqb (P c) (contains l c))). }
  split; intros Hc.
  - apply contains_In. rewrite <- E; [exact Hc|now apply HP].
  - rewrite E; [now apply contains_In|]. now apply (all_below l).
Qed.
Lemma digit_iff c : is_digit_char c = true <-> In c digits.
Proof.
  apply ascii_iff; [reflexivity|reflexivity|]. unfold is_digit_char. intros d H.
  apply andb_prop in H as [_ H]. apply N.leb_le in H. change (c_ "9") with 57 in H. lia.
Qed.
Lemma letter_below c : is_letter c = true -> c < 128.
Proof.
  unfold is_letter, is_lower, is_upper. rewrite orb_true_iff, !andb_true_iff, !N.leb_le.
  change (c_ "z") with 122. change (c_ "Z") with 90. lia.
Qed.
Lemma letter_iff c : is_letter c = true <-> In c (lower ++ upper).
Proof. apply ascii_iff; [reflexivity|reflexivity|apply letter_below]. Qed.

(** ** Escapes *)
Lemma escape_lit c d : escape_meaning c = Done (EscLit d) <-> stands_for c d.
Proof.
  split.
  - unfold escape_meaning.
    repeat (match goal with |- context [c =? ?x] => destruct (N.eqb_spec c x) as [->|]; [|] end;
            [try discriminate; injection 1 as <-; constructor|]).
    destruct (contains (s_ "pP<>") c) eqn:E1; [discriminate|].
    destruct (c <? 128) eqn:E2; [|discriminate]. destruct (is_letter c) eqn:E3; [discriminate|].
    destruct (is_digit_char c) eqn:E4; [discriminate|]. injection 1 as <-. apply sf_itself.
    + now apply N.ltb_lt.
    + rewrite app_assoc, !in_app_iff. intros [[H|H]|[H|H]].
      * apply digit_iff in H. congruence.
      * assert (HL : is_letter c = true) by (apply letter_iff, in_or_app; now left). congruence.
      * assert (HL : is_letter c = true) by (apply letter_iff, in_or_app; now right). congruence.
      * apply contains_false in E1. apply E1. cbn in H |- *. intuition.
  - intros [| | | | | |e He Hn]; try reflexivity.
    assert (H : match escape_meaning e with Done (EscLit x) => x =? e | _ => false end ||
                contains (digits ++ lower ++ upper ++ s_ "<>") e = true).
    { apply (below_128 (fun e => match escape_meaning e with Done (EscLit x) => x =? e | _ => false end ||
                contains (digits ++ lower ++ upper ++ s_ "<>") e)); [vm_compute; reflexivity|exact He]. }
    apply contains_false in Hn. rewrite Hn, orb_false_r in H.
    destruct (escape_meaning e) as [[x| | |]| |]; try discriminate H. apply N.eqb_eq in H. now subst x.
Qed.
Lemma escape_perl c n p : escape_meaning c = Done (EscPerl n p) <-> perl_class c (CPerl n p).
Proof.
  split; [|now inversion 1]. unfold escape_meaning.
  repeat (match goal with |- context [c =? ?x] => destruct (N.eqb_spec c x) as [->|]; [|] end;
          [try discriminate; injection 1 as <- <-; constructor|]).
  destruct (contains (s_ "pP<>") c); [discriminate|]. destruct (_ && _ && _); discriminate.
Qed.
Lemma escape_look c l : escape_meaning c = Done (EscLook l) <->
  c = c_ "A" /\ l = LStart \/ c = c_ "z" /\ l = LEnd \/ c = c_ "b" /\ l = LWord \/ c = c_ "B" /\ l = LNotWord.
Proof.
  split; [|now intros [[-> ->]|[[-> ->]|[[-> ->]|[-> ->]]]]]. unfold escape_meaning.
  repeat (match goal with |- context [c =? ?x] => destruct (N.eqb_spec c x) as [->|]; [|] end;
          [try discriminate; injection 1 as <-; auto|]).
  destruct (contains (s_ "pP<>") c); [discriminate|]. destruct (_ && _ && _); discriminate.
Qed.
(** ** Hexadecimal escapes *)
Lemma escape_hex c n : escape_meaning c = Done (EscHex n) <-> In (c, n) [(c_ "x", 2%nat); (c_ "u", 4%nat); (c_ "U", 8%nat)].
Proof.
  split; [|intros [[= <- <-]|[[= <- <-]|[[= <- <-]|[]]]]; reflexivity]. unfold escape_meaning.
  repeat (match goal with |- context [c =? ?x] => destruct (N.eqb_spec c x) as [->|]; [|] end;
          [try discriminate; injection 1 as <-; cbn; auto|]).
  destruct (contains (s_ "pP<>") c); [discriminate|]. destruct (_ && _ && _); discriminate.
Qed.
Lemma hex_value_iff c v : hex_value c = Some v <-> hex_digit c v.
Proof.
  split.
  - intros H. assert (Hc : c < 128).
    { unfold hex_value, is_digit_char in H. change (c_ "9") with 57 in H. change (c_ "f") with 102 in H. change (c_ "F") with 70 in H.
      destruct (N.leb_spec c 57); [lia|]. destruct (N.leb_spec c 102); [lia|]. destruct (N.leb_spec c 70); [lia|].
      rewrite !andb_false_r in H. discriminate H. }
    assert (Hb := below_128 (fun c => match hex_value c with
      | Some v => (v <? 16) && (match nth_error (digits ++ firstn 6 lower) (N.to_nat v) with Some d => d =? c | None => false end ||
                                match nth_error (digits ++ firstn 6 upper) (N.to_nat v) with Some d => d =? c | None => false end)
      | None => true end) ltac:(vm_compute; reflexivity) c Hc). cbv beta in Hb. rewrite H in Hb.
    apply andb_prop in Hb as [H1 H2]. apply N.ltb_lt in H1. split; [exact H1|]. apply orb_prop in H2.
    destruct H2 as [H2|H2]; [left|right]; (destruct (nth_error _ _); [|discriminate H2]); apply N.eqb_eq in H2; now subst.
  - intros [Hv H]. assert (Hs : In v (map N.of_nat (List.seq 0 16))).
    { apply in_map_iff. exists (N.to_nat v). rewrite N2Nat.id, in_seq. split; [reflexivity|lia]. }
    clear Hv. cbn [map List.seq] in Hs. repeat destruct Hs as [<-|Hs]; try contradiction; destruct H as [H|H]; vm_compute in H; injection H as <-; reflexivity.
Qed.
(** The whole of [t] is read within an escape. *)
Fixpoint hexes (t : str) (h : hex) : outcome (hex + char) :=
  match t with
  | [] => Done (inl h)
  | c :: t => obind (step_hex h c) (fun x => match x with inl h => hexes t h | inr v => match t with [] => Done (inr v) | _ => Invalid end end)
  end.
Lemma hexes_app t : forall h u, hexes (t ++ u) h =
  match hexes t h with Done (inl h') => hexes u h' | Done (inr v) => match u with [] => Done (inr v) | _ => Invalid end | _ => hexes t h end.
Proof.
  induction t as [|c t IH]; intros h u; [reflexivity|]. cbn [app hexes]. destruct (step_hex h c) as [[h'|v]| |]; cbn [obind]; try reflexivity.
  - apply IH.
  - destruct t as [|d t]; [|reflexivity]. now destruct u.
Qed.
Lemma hexes_one h c : hexes [c] h = step_hex h c.
Proof. cbn [hexes]. now destruct (step_hex h c) as [[]| |]. Qed.
Lemma hex_char_iff v d : hex_char v = Done (inr d) <-> v = d /\ d < 1114112 /\ ~ 55296 <= d < 57344.
Proof.
  unfold hex_char. destruct (N.leb_spec v 1114111), (N.leb_spec 55296 v), (N.leb_spec v 57343); cbn [andb negb];
    (split; [try discriminate; intros [= <-]; lia|intros [-> ?]; try lia; reflexivity]).
Qed.
Lemma hex_char_done v h : hex_char v <> Done (inl h).
Proof. unfold hex_char. now destruct (_ && _). Qed.
Lemma hexes_brace t v : hexadecimal t v -> hexes t (HBrace None) = Done (inl (HBrace (Some v))).
Proof.
  assert (Hb : forall c d, hex_digit c d -> c =? c_ "}" = false /\ hex_value c = Some d).
  { intros c d H. apply hex_value_iff in H. split; [|exact H]. destruct (N.eqb_spec c (c_ "}")) as [->|]; [discriminate H|reflexivity]. }
  induction 1 as [c d Hd|t n c d Ht IH Hd]; destruct (Hb _ _ Hd) as [E1 E2].
  - rewrite hexes_one. cbn [step_hex]. now rewrite E1, E2.
  - rewrite hexes_app, IH, hexes_one. cbn [step_hex]. rewrite E1, E2. do 4 f_equal. lia.
Qed.
Lemma hexes_digits n t v : hexadecimal t v -> (List.length t < n)%nat -> hexes t (HFirst n) = Done (inl (HDigits (n - List.length t) v)).
Proof.
  assert (Hb : forall c d, hex_digit c d -> c =? c_ "{" = false /\ hex_value c = Some d).
  { intros c d H. apply hex_value_iff in H. split; [|exact H]. destruct (N.eqb_spec c (c_ "{")) as [->|]; [discriminate H|reflexivity]. }
  induction 1 as [c d Hd|t k c d Ht IH Hd]; intros Hn; destruct (Hb _ _ Hd) as [E1 E2].
  - rewrite hexes_one. cbn [step_hex List.length]. rewrite E1, E2. now rewrite Nat.sub_1_r.
  - rewrite app_length in Hn |- *. cbn [List.length] in *. rewrite hexes_app, IH, hexes_one by lia. cbn [step_hex]. rewrite E2.
    destruct (Nat.leb_spec (n - List.length t) 1); [lia|]. do 3 f_equal; lia.
Qed.
Lemma hexes_digits_last n t d : hexadecimal t d -> List.length t = n -> (2 <= n)%nat -> hexes t (HFirst n) = hex_char d.
Proof.
  intros H Hn H2. destruct H as [c d Hd|t k c d Ht Hd]; [cbn in Hn; lia|]. rewrite app_length in Hn. cbn [List.length] in Hn.
  rewrite hexes_app, (hexes_digits n t k Ht) by lia. rewrite hexes_one. cbn [step_hex]. apply hex_value_iff in Hd. rewrite Hd.
  destruct (Nat.leb_spec (n - List.length t) 1); [|lia]. f_equal. lia.
Qed.
Lemma brace_hexes t : forall w v d, match v with Some v => hexadecimal w v | None => w = [] end -> hexes t (HBrace v) = Done (inr d) ->
  exists u, t = u ++ s_ "}" /\ hexadecimal (w ++ u) d /\ d < 1114112 /\ ~ 55296 <= d < 57344.
Proof.
  induction t as [|c t IH]; intros w v d Hw; [discriminate|]. cbn [hexes step_hex]. destruct (N.eqb_spec c (c_ "}")) as [->|].
  - destruct v as [v|]; [|discriminate]. destruct (hex_char v) as [[h|x]| |] eqn:E; cbn [obind]; try discriminate; [now apply hex_char_done in E|].
    destruct t; [|discriminate]. intros [= <-]. apply hex_char_iff in E as [-> E]. exists []. rewrite app_nil_r. auto.
  - destruct (hex_value c) as [x|] eqn:Ex; cbn [obind]; [|discriminate]. apply hex_value_iff in Ex. intros H. apply (IH (w ++ [c])) in H.
    + destruct H as (u & -> & H1 & H2). exists (c :: u). rewrite <- app_assoc in H1. auto.
    + destruct v as [v|]; [|subst w; cbn [app]; now constructor]. rewrite (N.mul_comm v). now constructor.
Qed.
Lemma digits_hexes t : forall n w v d, hexadecimal w v -> hexes t (HDigits n v) = Done (inr d) -> (1 <= n)%nat ->
  List.length t = n /\ hexadecimal (w ++ t) d /\ d < 1114112 /\ ~ 55296 <= d < 57344.
Proof.
  induction t as [|c t IH]; intros n w v d Hw; [discriminate|]. cbn [hexes step_hex]. destruct (hex_value c) as [x|] eqn:Ex; cbn [obind]; [|discriminate].
  apply hex_value_iff in Ex. destruct (Nat.leb_spec n 1).
  - destruct (hex_char _) as [[h|y]| |] eqn:E; cbn [obind]; try discriminate; [now apply hex_char_done in E|]. destruct t; [|discriminate].
    intros [= <-] Hn. apply hex_char_iff in E as [<- E]. rewrite (N.mul_comm v) in *. split; [cbn; lia|]. split; [now constructor|exact E].
  - cbn [obind]. intros H1 Hn. apply (IH _ (w ++ [c])) in H1; [|rewrite (N.mul_comm v); now constructor|lia].
    rewrite <- app_assoc in H1. destruct H1 as (H1 & H2). cbn [List.length]. split; [lia|exact H2].
Qed.
Lemma first_hexes t n d : (2 <= n)%nat -> hexes t (HFirst n) = Done (inr d) ->
  ((exists u, t = s_ "{" ++ u ++ s_ "}" /\ hexadecimal u d) \/ List.length t = n /\ hexadecimal t d) /\ d < 1114112 /\ ~ 55296 <= d < 57344.
Proof.
  intros Hn. destruct t as [|c t]; [discriminate|]. cbn [hexes step_hex]. destruct (N.eqb_spec c (c_ "{")) as [->|].
  - cbn [obind]. intros H. apply (brace_hexes t [] None d eq_refl) in H as (u & -> & H1 & H2). split; [|exact H2]. left. exists u. auto.
  - destruct (hex_value c) as [x|] eqn:Ex; cbn [obind]; [|discriminate]. apply hex_value_iff in Ex. intros H.
    apply (digits_hexes t _ [c] x d) in H; [|now constructor|lia]. destruct H as (H1 & H2). cbn [app] in H2. cbn [List.length].
    split; [right; split; [lia|apply H2]|apply H2].
Qed.
Definition wide (c : char) (n : nat) : Prop := In (c, n) [(c_ "x", 2%nat); (c_ "u", 4%nat); (c_ "U", 8%nat)].
Lemma char_escape_iff t d : char_escape t d <-> exists c, (t = [c] /\ escape_meaning c = Done (EscLit d)) \/
  (exists u n, t = c :: u /\ escape_meaning c = Done (EscHex n) /\ hexes u (HFirst n) = Done (inr d)).
Proof.
  split.
  - intros [c e H|c n u e Hc Hl H H1 H2|c u e Hc H H1 H2].
    + exists c. left. split; [reflexivity|now apply escape_lit].
    + exists c. right. exists u, n. split; [reflexivity|]. split; [now apply escape_hex|].
      rewrite (hexes_digits_last n u e H Hl); [now apply hex_char_iff|]. destruct Hc as [[= <- <-]|[[= <- <-]|[[= <- <-]|[]]]]; lia.
    + exists c. right. assert (Hn : exists n, escape_meaning c = Done (EscHex n)) by (cbn in Hc; destruct Hc as [<-|[<-|[<-|[]]]]; eexists; reflexivity).
      destruct Hn as (n & Hn). exists (s_ "{" ++ u ++ s_ "}"), n. split; [reflexivity|]. split; [exact Hn|].
      change (s_ "{" ++ u ++ s_ "}") with (c_ "{" :: u ++ s_ "}"). cbn [hexes step_hex]. rewrite N.eqb_refl. cbn [obind].
      rewrite hexes_app, (hexes_brace u e H). change (s_ "}") with [c_ "}"]. rewrite hexes_one. cbn [step_hex]. rewrite N.eqb_refl. now apply hex_char_iff.
  - intros (c & [[-> H]|(u & n & -> & Hn & H)]); [constructor; now apply escape_lit|]. apply escape_hex in Hn.
    apply first_hexes in H; [|destruct Hn as [[= <- <-]|[[= <- <-]|[[= <- <-]|[]]]]; lia]. destruct H as ([(w & -> & H)|[H1 H]] & H2 & H3).
    + apply ce_braces; try assumption. destruct Hn as [[= <- <-]|[[= <- <-]|[[= <- <-]|[]]]]; cbn; tauto.
    + now apply (ce_digits c n).
Qed.
Lemma run_hexes t : forall h d v s, hexes t h = Done (inr d) -> run (t ++ v) (set_mode (MHex h) s) = run v (push_item (RLit d) s).
Proof.
  induction t as [|c t IH]; intros h d v s; [discriminate|]. cbn [hexes app]. rewrite run_cons. cbn [set_mode st_mode step].
  destruct (step_hex h c) as [[h'|x]| |]; cbn [obind]; try discriminate; [exact (IH h' d v s)|].
  destruct t; [|discriminate]. intros [= <-]. reflexivity.
Qed.
Lemma run_class_hexes t n l a : forall h d v s, hexes t h = Done (inr d) ->
  run (t ++ v) (set_mode (MClassHex n l a h) s) = obind (class_lit n l a s d) (run v).
Proof.
  induction t as [|c t IH]; intros h d v s; [discriminate|]. cbn [hexes app]. rewrite run_cons. cbn [set_mode st_mode step].
  destruct (step_hex h c) as [[h'|x]| |]; cbn [obind]; try discriminate; [exact (IH h' d v s)|].
  destruct t; [|discriminate]. intros [= <-]. reflexivity.
Qed.
Lemma run_escape t d v s : char_escape t d -> run (t ++ v) (set_mode MEsc s) = run v (push_item (RLit d) s).
Proof.
  intros H. apply char_escape_iff in H as (c & [[-> H]|(u & n & -> & Hn & H)]); cbn [app]; rewrite run_cons; cbn [set_mode st_mode step].
  - now rewrite H.
  - rewrite Hn. cbn [obind]. exact (run_hexes u _ d v s H).
Qed.
Lemma run_class_escape t d v n l a s : char_escape t d -> run (t ++ v) (set_mode (MClassEsc n l a) s) = obind (class_lit n l a s d) (run v).
Proof.
  intros H. apply char_escape_iff in H as (c & [[-> H]|(u & k & -> & Hn & H)]); cbn [app]; rewrite run_cons; cbn [set_mode st_mode step].
  - rewrite H. reflexivity.
  - rewrite Hn. cbn [obind]. exact (run_class_hexes u n l a _ d v s H).
Qed.
Lemma perl_item c i : perl_class c i -> exists n p, i = CPerl n p.
Proof. intros []; eauto. Qed.

(** ** Classes *)
Lemma step_class_plain n l s c : ~ In c (s_ "[]&~-\") -> step_class n l s c = Done (set_mode (MClassLit n l c) s).
Proof.
  intros H. unfold step_class. destruct (N.eqb_spec c (c_ "]")) as [->|]; [exfalso; apply H; cbn; tauto|].
  destruct (contains (s_ "[&~") c) eqn:E.
  { apply contains_In in E. exfalso. apply H. cbn in E |- *. intuition. }
  destruct (N.eqb_spec c (c_ "-")) as [->|]; [exfalso; apply H; cbn; tauto|].
  destruct (N.eqb_spec c (c_ "\")) as [->|]; [exfalso; apply H; cbn; tauto|]. reflexivity.
Qed.
(** Between two items: the mode [m] in which the items [acc] (in reverse) have been read and the text [u] is to follow. *)
Inductive boundary : mode -> bool -> list class_item -> str -> Prop :=
| b_in n acc u : boundary (MClassIn n acc) n acc u
| b_lit n a acc u : no_range u -> boundary (MClassLit n acc a) n (CRange a a :: acc) u
| b_perl n acc u : no_range u -> boundary (MClassPerl n acc) n acc u
| b_dash n acc u : ~ starts (c_ "-") u -> boundary (MClassDash n acc) n (CRange (c_ "-") (c_ "-") :: acc) u
| b_one n acc u : ~ starts (c_ "-") u -> acc <> [] \/ u <> [] -> boundary (MClass1 n acc) n acc u
| b_zero u : ~ starts (c_ "-") u -> ~ starts (c_ "^") u -> u <> [] -> boundary MClass0 false [] u.
Lemma step_class_mode n l m s c : step_class n l (set_mode m s) c = step_class n l s c.
Proof. unfold step_class. destruct (c =? c_ "]"), (contains (s_ "[&~") c), (c =? c_ "-"), (c =? c_ "\"); reflexivity. Qed.
Lemma boundary_step m n acc c u s : boundary m n acc (c :: u) -> c <> c_ "-" -> c <> c_ "]" -> c <> c_ "&" ->
  step (set_mode m s) c = step_class n acc s c.
Proof.
  intros H Hd Hb Ha. apply N.eqb_neq in Hd, Hb, Ha.
  inversion H as [n1 acc1 u1|n1 a acc1 u1 Hu|n1 acc1 u1 Hu|n1 acc1 u1 Hu|n1 acc1 u1 Hu Hv|u1 Hu Hc Hv]; subst;
    cbn [set_mode st_mode step]; rewrite ?Hd, ?Hb, ?Ha; cbn [andb]; rewrite ?step_class_mode; try reflexivity.
  - now destruct acc.
  - destruct (N.eqb_spec c (c_ "^")) as [E|]; [|reflexivity]. destruct Hc. exists u. now rewrite E.
Qed.
Lemma boundary_end m n acc s : boundary m n acc [] ->
  step (set_mode m s) (c_ "]") = Done (push_item (RClass (mkClass n (rev acc))) s).
Proof.
  inversion 1; subst; try reflexivity; cbn [set_mode st_mode step].
  - destruct acc; [|reflexivity]. exfalso. match goal with H : _ \/ _ |- _ => destruct H; congruence end.
  - congruence.
Qed.
(** A char in a class. *)
Lemma run_class_char t a u v m n acc s : class_char (s_ "[]&~-\") t a -> boundary m n acc (t ++ u) ->
  run (t ++ v) (set_mode m s) = run v (set_mode (MClassLit n acc a) s).
Proof.
  intros [c Hc|e d Hc] H; cbn [app] in *; rewrite run_cons; rewrite (boundary_step _ _ _ _ _ s H).
  - rewrite step_class_plain by exact Hc. reflexivity.
  - intros ->. apply Hc. cbn. tauto.
  - intros ->. apply Hc. cbn. tauto.
  - intros ->. apply Hc. cbn. tauto.
  - change (step_class n acc s (c_ "\")) with (Done (set_mode (MClassEsc n acc None) s)). cbn [obind].
    now rewrite (run_class_escape e d).
  - easy.
  - easy.
  - easy.
Qed.
Lemma run_range_end e b n acc a u s : class_char (s_ "]-\") e b -> a <= b ->
  run (e ++ u) (set_mode (MClassRange n acc a) s) = run u (set_mode (MClassIn n (CRange a b :: acc)) s).
Proof.
  intros He Hle. apply N.ltb_ge in Hle. destruct He as [c Hc|e d Hc]; cbn [app]; rewrite run_cons; cbn [set_mode st_mode step].
  - destruct (N.eqb_spec c (c_ "]")) as [->|]; [exfalso; apply Hc; cbn; tauto|].
    destruct (N.eqb_spec c (c_ "-")) as [->|]; [exfalso; apply Hc; cbn; tauto|].
    destruct (N.eqb_spec c (c_ "\")) as [->|]; [exfalso; apply Hc; cbn; tauto|].
    unfold add_range. now rewrite Hle.
  - change (c_ "\" =? c_ "]") with false. change (c_ "\" =? c_ "-") with false. change (c_ "\" =? c_ "\") with true.
    cbn [obind]. change (set_mode (MClassEsc n acc (Some a)) _) with (set_mode (MClassEsc n acc (Some a)) s).
    rewrite (run_class_escape e d) by exact Hc. cbn [class_lit]. unfold add_range. now rewrite Hle.
Qed.
Lemma class_char_nonempty x t a : class_char x t a -> t <> [].
Proof. now intros []. Qed.
Lemma class_items_nil l : class_items [] l -> l = [].
Proof.
  intros H. remember [] as u eqn:E. destruct H as [|t a u l Ht| t a e b u l Ht| |]; try easy.
  - apply app_eq_nil in E as [-> _]. now destruct (class_char_nonempty _ _ _ Ht).
  - apply app_eq_nil in E as [-> _]. now destruct (class_char_nonempty _ _ _ Ht).
Qed.
Lemma run_class_items u l : class_items u l -> forall m n acc s, boundary m n acc u ->
  run (u ++ s_ "]") (set_mode m s) = Done (push_item (RClass (mkClass n (rev acc ++ l))) s).
Proof.
  induction 1 as [|t a u l Ht Hu Hl IH|t a e b u l Ht He Hab Hl IH|u l Hu Hl IH|c i u l Hc Hu Hl IH]; intros m n acc s Hm.
  - cbn [app]. change (s_ "]") with [c_ "]"]. rewrite run_cons, (boundary_end _ _ _ _ Hm), app_nil_r. reflexivity.
  - rewrite <- app_assoc, (run_class_char t a u _ m n acc _ Ht Hm).
    rewrite (IH _ n (CRange a a :: acc)) by now constructor. cbn [rev]. now rewrite <- app_assoc.
  - rewrite <- !app_assoc, (run_class_char t a _ _ m n acc _ Ht Hm). change (s_ "-") with [c_ "-"]. cbn [app]. rewrite run_cons.
    change (step (set_mode (MClassLit n acc a) s) (c_ "-")) with (Done (set_mode (MClassRange n acc a) s)). cbn [obind].
    rewrite (run_range_end _ _ _ _ _ _ _ He Hab).
    rewrite (IH _ n (CRange a b :: acc)) by constructor. cbn [rev]. now rewrite <- app_assoc.
  - change (s_ "-" ++ u) with (c_ "-" :: u) in *. cbn [app]. rewrite run_cons.
    assert (Hd : starts (c_ "-") (c_ "-" :: u)) by now exists u.
    inversion Hm as [n' acc' u'|n' a acc' u' Hv|n' acc' u' Hv|n' acc' u' Hv|n' acc' u' Hv|u' Hv]; subst; try now destruct Hv.
    + change (step (set_mode (MClassIn n acc) s) (c_ "-")) with (Done (set_mode (MClassDash n acc) s)). cbn [obind].
      rewrite (IH _ n (CRange (c_ "-") (c_ "-") :: acc)) by now constructor. cbn [rev]. now rewrite <- app_assoc.
    + specialize (Hv Hd). injection Hv as ->. apply class_items_nil in Hl as ->. cbn [rev]. rewrite <- !app_assoc. cbn [app].
      destruct s as [? ? ? ?]. unfold set_mode. cbn. unfold push_item. cbn. now rewrite <- app_assoc.
    + specialize (Hv Hd). injection Hv as ->. apply class_items_nil in Hl as ->.
      destruct s as [? ? ? ?]. unfold set_mode. cbn. unfold push_item. reflexivity.
  - cbn [app] in *. rewrite run_cons, (boundary_step _ _ _ _ _ s Hm) by easy.
    change (step_class n acc s (c_ "\")) with (Done (set_mode (MClassEsc n acc None) s)). cbn [obind].
    rewrite run_cons. cbn [set_mode st_mode step]. destruct (perl_item _ _ Hc) as (ng & p & ->). apply escape_perl in Hc.
    rewrite Hc. cbn [obind]. change (set_mode (MClassPerl n (CPerl ng p :: acc)) _) with (set_mode (MClassPerl n (CPerl ng p :: acc)) s).
    rewrite (IH _ n (CPerl ng p :: acc)) by now constructor. cbn [rev]. now rewrite <- app_assoc.
Qed.
Lemma starts_app_nil c t : starts c t -> forall u, starts c (t ++ u).
Proof. intros [v ->] u. now exists (v ++ u). Qed.
Lemma rev_repeat {A} (x : A) n : rev (repeat x n) = repeat x n.
Proof.
  induction n as [|n IH]; [reflexivity|]. cbn [repeat rev]. rewrite IH. clear IH.
  induction n as [|n IH]; [reflexivity|]. cbn [repeat app]. now rewrite IH.
Qed.
Lemma run_dashes n k u l s :
  run (repeat (c_ "-") k ++ u) (set_mode (MClass1 n l) s) = run u (set_mode (MClass1 n (repeat (CRange (c_ "-") (c_ "-")) k ++ l)) s).
Proof.
  revert l. induction k as [|k IH]; intros l; [reflexivity|]. cbn [repeat app]. rewrite run_cons.
  change (step (set_mode (MClass1 n l) s) (c_ "-")) with (Done (set_mode (MClass1 n (CRange (c_ "-") (c_ "-") :: l)) s)). cbn [obind].
  rewrite IH. repeat f_equal. clear IH. induction k as [|k IH]; [reflexivity|]. cbn [repeat app]. now rewrite IH.
Qed.
Lemma run_class_inside u l n s : class_inside u l -> (n = false -> ~ starts (c_ "^") u) ->
  run (u ++ s_ "]") (set_mode (if n then MClass1 true [] else MClass0) s) = Done (push_item (RClass (mkClass n l)) s).
Proof.
  intros [v k Hv|k v w Hv Hd Hk] Hn.
  - change (s_ "]" ++ v) with (c_ "]" :: v). cbn [app]. rewrite run_cons.
    replace (step (set_mode (if n then MClass1 true [] else MClass0) s) (c_ "]"))
      with (Done (set_mode (MClassIn n [CRange (c_ "]") (c_ "]")]) s)) by now destruct n.
    cbn [obind]. rewrite (run_class_items _ _ Hv _ n [CRange (c_ "]") (c_ "]")]) by constructor. reflexivity.
  - destruct k as [|k].
    + cbn [repeat app] in *. specialize (Hk eq_refl). rewrite (run_class_items _ _ Hv _ n []); [reflexivity|].
      destruct n; constructor; auto.
    + destruct n.
      * rewrite <- app_assoc, run_dashes, app_nil_r.
        rewrite (run_class_items _ _ Hv _ true (repeat (CRange (c_ "-") (c_ "-")) (S k))); [now rewrite rev_repeat|].
        constructor; [exact Hd|]. now left.
      * cbn [repeat app]. rewrite run_cons.
        change (step (set_mode MClass0 s) (c_ "-")) with (Done (set_mode (MClass1 false [CRange (c_ "-") (c_ "-")]) s)). cbn [obind].
        rewrite <- app_assoc, run_dashes.
        rewrite (run_class_items _ _ Hv _ false (repeat (CRange (c_ "-") (c_ "-")) k ++ [CRange (c_ "-") (c_ "-")])).
        -- rewrite rev_app_distr, rev_repeat. reflexivity.
        -- constructor; [exact Hd|]. left. now destruct k.
Qed.
Lemma adds_one_class t k : class_text t k -> adds_one t (RClass k).
Proof.
  intros H m items alts stack Hm. destruct H as [u l Hu Hs|u l Hu|u Hu].
  - change (s_ "[" ++ u ++ s_ "]") with (c_ "[" :: u ++ s_ "]"). rewrite run_cons.
    replace (step (mkState m items alts stack) (c_ "[")) with (Done (set_mode MClass0 (mkState m items alts stack)))
      by now destruct Hm. cbn [obind].
    now rewrite (run_class_inside u l false (mkState m items alts stack) Hu).
  - change (s_ "[^" ++ u ++ s_ "]") with (c_ "[" :: c_ "^" :: u ++ s_ "]"). rewrite run_cons.
    replace (step (mkState m items alts stack) (c_ "[")) with (Done (set_mode MClass0 (mkState m items alts stack)))
      by now destruct Hm. cbn [obind]. rewrite run_cons.
    change (step (set_mode MClass0 (mkState m items alts stack)) (c_ "^"))
      with (Done (set_mode (MClass1 true []) (mkState m items alts stack))). cbn [obind].
    now rewrite (run_class_inside u l true (mkState m items alts stack) Hu).
  - change (s_ "[" ++ u ++ s_ "&&b]") with (c_ "[" :: u ++ s_ "&&b]"). rewrite run_cons.
    replace (step (mkState m items alts stack) (c_ "[")) with (Done (set_mode MClass0 (mkState m items alts stack)))
      by now destruct Hm. cbn [obind].
    rewrite (run_class_char u (c_ "a") [] _ _ false [] _ Hu); [reflexivity|]. rewrite app_nil_r.
    inversion Hu; subst; constructor; try easy; intros [v Hv]; discriminate Hv.
Qed.

(** ** Repetitions *)
Lemma run_snoc t c s s' : run t s = Done s' -> run (t ++ [c]) s = step s' c.
Proof. intros H. rewrite run_app, H. cbn [obind]. rewrite run_cons. now destruct (step s' c). Qed.
Lemma add_digit_value n c : add_digit (Some n) c = Some (10 * n + (c - c_ "0")).
Proof. unfold add_digit, digit_value. f_equal. lia. Qed.
Lemma run_count t n : decimal t n -> forall s, run t (set_mode (MCount None) s) = Done (set_mode (MCount (Some n)) s).
Proof.
  induction 1 as [c Hc|t n c Ht IH Hc]; intros s; apply digit_iff in Hc.
  - rewrite run_cons. cbn [set_mode st_mode step]; try unfold step_count; rewrite Hc. reflexivity.
  - rewrite (run_snoc _ _ _ _ (IH s)). cbn [set_mode st_mode step]; try unfold step_count; rewrite Hc, add_digit_value. reflexivity.
Qed.
Lemma run_count_to k t n : decimal t n -> forall s, run t (set_mode (MCountTo k None) s) = Done (set_mode (MCountTo k (Some n)) s).
Proof.
  induction 1 as [c Hc|t n c Ht IH Hc]; intros s; apply digit_iff in Hc.
  - rewrite run_cons. cbn [set_mode st_mode step]; try unfold step_count; rewrite Hc. reflexivity.
  - rewrite (run_snoc _ _ _ _ (IH s)). cbn [set_mode st_mode step]; try unfold step_count; rewrite Hc, add_digit_value. reflexivity.
Qed.
Lemma in_range n : n < 2 ^ 32 <-> u32_max <? n = false.
Proof. rewrite N.ltb_ge. unfold u32_max. change (2 ^ 32) with 4294967296. lia. Qed.
Lemma run_open_count m r items alts stack t n u : ready m -> decimal t n ->
  run (s_ "{" ++ t ++ u) (mkState m (r :: items) alts stack) = run (t ++ u) (set_mode (MCount None) (mkState m (r :: items) alts stack)).
Proof.
  intros [] Hd; [reflexivity..|].
  assert (Hc : exists c v, t = c :: v /\ is_digit_char c = true).
  { clear -Hd. induction Hd as [c Hc|t n c Ht (d & v & -> & Hd) Hc]; [apply digit_iff in Hc; now exists c, []|now exists d, (v ++ [c])]. }
  destruct Hc as (c & v & -> & Hc). change (s_ "{" ++ (c :: v) ++ u) with (c_ "{" :: c :: v ++ u). change ((c :: v) ++ u) with (c :: v ++ u).
  cbn [run step st_mode set_mode]. change (c_ "{" =? c_ "{") with true. cbv iota. cbn [obind run step st_mode set_mode].
  rewrite digit_no_letter by exact Hc. reflexivity.
Qed.
Lemma run_operator op min max : operator op min max -> forall m r items alts stack, ready m -> (m = MRep -> op <> s_ "?") ->
  run op (mkState m (r :: items) alts stack) = Done (mkState MRep (RRep min max true r :: items) alts stack).
Proof.
  intros H m r items alts stack Hm Hq. destruct H as [| | |t n Ht Hn|t n Ht Hn|t n u k Ht Hu Hnk Hk].
  - destruct Hm; [reflexivity| |reflexivity]. now destruct (Hq eq_refl).
  - now destruct Hm.
  - now destruct Hm.
  - apply in_range in Hn. rewrite (run_open_count _ _ _ _ _ _ _ _ Hm Ht). rewrite run_app, (run_count _ _ Ht).
    cbn. rewrite Hn. reflexivity.
  - apply in_range in Hn. rewrite (run_open_count _ _ _ _ _ _ _ _ Hm Ht). rewrite run_app, (run_count _ _ Ht).
    cbn. rewrite Hn. reflexivity.
  - assert (Hn : n < 2 ^ 32) by lia. apply in_range in Hn, Hk.
    rewrite (run_open_count _ _ _ _ _ _ _ _ Hm Ht). rewrite run_app, (run_count _ _ Ht). cbn [obind].
    change (s_ "," ++ u ++ s_ "}") with (c_ "," :: u ++ s_ "}"). rewrite run_cons.
    replace (step (set_mode (MCount (Some n)) (mkState m (r :: items) alts stack)) (c_ ","))
      with (Done (set_mode (MCountTo n None) (mkState m (r :: items) alts stack))).
    2: { cbn. now rewrite Hn. }
    cbn [obind]. rewrite run_app, (run_count_to _ _ _ Hu). cbn.
    rewrite Hk. apply N.ltb_ge in Hnk. now rewrite Hnk.
Qed.

(** ** Names of groups *)
Lemma run_group_name n s : group_name n -> run n (set_mode (MName []) s) = Done (set_mode (MName (rev n)) s) /\ n <> [].
Proof.
  intros [c m Hc Hm]. split; [|easy].
  assert (Hf : forall s, step_name s [] c = Done (set_mode (MName [c]) s)).
  { intros s1. rewrite app_assoc in Hc. apply in_app_or in Hc. unfold step_name.
    destruct Hc as [Hc|[<-|[]]]; [|reflexivity]. apply letter_iff in Hc.
    pose proof (letter_below _ Hc). destruct (N.eqb_spec c (c_ ">")) as [->|]; [discriminate|].
    destruct (N.leb_spec 128 c); [lia|]. rewrite Hc, orb_true_r. reflexivity. }
  rewrite run_cons. cbn [step set_mode st_mode]. change (mkState _ _ _ _) with (set_mode (MName []) s). rewrite Hf. cbn [obind].
  change (set_mode (MName [c]) (set_mode (MName []) s)) with (set_mode (MName [c]) s).
  assert (H : forall acc, acc <> [] -> run m (set_mode (MName acc) s) = Done (set_mode (MName (rev m ++ acc)) s)).
  { clear Hc Hf. induction Hm as [|d m Hd Hm IH]; intros acc Hacc; [reflexivity|].
    rewrite run_cons. replace (step (set_mode (MName acc) s) d) with (Done (set_mode (MName (d :: acc)) s)).
    - cbn [obind]. rewrite IH by easy. cbn [rev]. now rewrite <- app_assoc.
    - cbn [step set_mode st_mode]. unfold step_name.
      assert (Hd1 : d < 128) by (apply (all_below (lower ++ upper ++ digits ++ s_ "_.[]")); [reflexivity|exact Hd]).
      destruct (N.eqb_spec d (c_ ">")) as [->|].
      { exfalso. revert Hd. apply contains_false. reflexivity. }
      destruct (N.leb_spec 128 d); [lia|].
      destruct ((d =? c_ "_") || is_letter d) eqn:E; [reflexivity|]. destruct acc as [|a acc]; [easy|].
      apply orb_false_iff in E as [E1 E2]. rewrite app_assoc in Hd. apply in_app_or in Hd as [Hd|Hd].
      { apply letter_iff in Hd. congruence. }
      apply in_app_or in Hd as [Hd|Hd]; [apply digit_iff in Hd; now rewrite Hd|].
      replace (contains (s_ ".[]") d) with true; [now rewrite orb_true_r|]. symmetry. apply contains_In.
      apply N.eqb_neq in E1. change (c_ "_") with 95 in E1. cbn in Hd |- *. intuition congruence. }
  rewrite H by easy. reflexivity.
Qed.

(** ** Regexes *)
Scheme atom_mind := Induction for atom Sort Prop
with repeated_mind := Induction for repeated Sort Prop
with sequence_mind := Induction for sequence Sort Prop
with alternatives_mind := Induction for alternatives Sort Prop.
Combined Scheme syntax_mind from atom_mind, repeated_mind, sequence_mind, alternatives_mind.

Definition proper (t : str) : Prop := t <> [] /\ ~ starts (c_ "?") t.
Lemma proper_app t u : proper t -> proper (t ++ u).
Proof.
  intros [H1 H2]. destruct t as [|c t]; [easy|]. split; [easy|]. intros [v Hv]. injection Hv as -> _. apply H2. now exists t.
Qed.
Lemma opens_proper q k : opens q k -> proper q.
Proof. intros H. split; [destruct H; easy|]. intros [u Hu]. destruct H; discriminate Hu. Qed.
Lemma class_proper t k : class_text t k -> proper t.
Proof. intros []; (split; [easy|]; intros [v Hv]; discriminate Hv). Qed.
Lemma run_named n t r m items alts stack : group_name n -> reads t r ->
  run (n ++ s_ ">" ++ t ++ s_ ")") (set_mode (MName []) (mkState m items alts stack)) =
  Done (mkState MNormal (RCap (Some n) r :: items) alts stack).
Proof.
  intros Hn Hr. destruct (run_group_name n (mkState m items alts stack) Hn) as [H1 H2].
  rewrite run_app, H1. cbn [obind]. change (s_ ">" ++ t ++ s_ ")") with (c_ ">" :: t ++ s_ ")"). rewrite run_cons.
  replace (step _ _) with (Done (mkState MNormal [] [] (mkFrame (KCapture (Some n)) items alts :: stack))).
  - cbn [obind]. now rewrite (run_inside _ _ _ _ _ _ Hr).
  - cbn [step set_mode st_mode]. unfold step_name. rewrite N.eqb_refl.
    destruct (rev n) eqn:E.
    + apply (f_equal (@rev N)) in E. rewrite rev_involutive in E. now subst.
    + rewrite <- E, rev_involutive. reflexivity.
Qed.
Lemma adds_one_opens q k t r : opens q k -> reads t r -> ~ starts (c_ "?") t ->
  adds_one (q ++ t ++ s_ ")") (match k with Some n => RCap n r | None => r end).
Proof.
  intros [| |n Hn|n Hn] H Ht.
  - now apply adds_one_group.
  - apply adds_one_capture; [|exact H]. intros u ->. apply Ht. now exists u.
  - rewrite <- !app_assoc. intros m items alts stack Hm. rewrite run_app.
    replace (run (s_ "(?P<") (mkState m items alts stack)) with
      (Done (set_mode (MName []) (mkState m items alts stack))) by now destruct Hm.
    cbn [obind]. now apply run_named.
  - rewrite <- !app_assoc. intros m items alts stack Hm. rewrite run_app.
    replace (run (s_ "(?<") (mkState m items alts stack)) with
      (Done (set_mode MOpenLt (mkState m items alts stack))) by now destruct Hm.
    cbn [obind]. rewrite <- (run_named n t r m items alts stack Hn H). destruct Hn as [c n Hc Hn]. cbn [app].
    rewrite !run_cons. f_equal. cbn [step set_mode st_mode].
    destruct (contains (s_ "=!") c) eqn:E; [|reflexivity]. exfalso. apply contains_In in E. cbn [s_] in E.
    revert Hc. apply contains_false. cbn in E. destruct E as [<-|[<-|[]]]; reflexivity.
Qed.
Lemma not_special c : ~ In c (s_ "()|[?*+{\.^$") -> plain_step c = true.
Proof.
  intros H. apply forallb_forall. intros d Hd. destruct (N.eqb_spec c d) as [->|]; [|reflexivity]. now destruct H.
Qed.
Definition reads_seq (t : str) (r : re) (l : list re) : Prop := r = mk_cat l /\ adds t l /\ (t <> [] -> l <> []).
Ltac read_look :=
  intros m items alts stack Hm; first [exists MNormal; split; [apply settled_normal|]; now destruct Hm|exists MWord; split; [apply settled_word|]; now destruct Hm].
Lemma syntax_read :
  (forall t r, atom t r -> adds_settled t r /\ proper t) /\
  (forall t r o, repeated t r o -> proper t /\ forall m items alts stack, ready m -> exists m', ready m' /\ (m' = MRep -> o = true) /\
     run t (mkState m items alts stack) = Done (mkState m' (r :: items) alts stack)) /\
  (forall t r, sequence t r -> ~ starts (c_ "?") t /\ exists l, reads_seq t r l) /\
  (forall t r, alternatives t r -> ~ starts (c_ "?") t /\ exists t0 l0 l, t = t0 ++ bars l /\ adds t0 l0 /\
     Forall (fun x => adds (fst x) (snd x)) l /\ r = mk_alt (mk_cat l0 :: cats l)).
Proof.
  apply syntax_mind.
  - intros c Hc. split.
    + apply adds_one_settled. intros m items alts stack Hm. rewrite run_cons, step_plain; [reflexivity|exact Hm|now apply not_special].
    + split; [easy|]. intros [u Hu]. injection Hu as -> _. apply Hc. cbn. tauto.
  - split; [read_look|]. split; [easy|]. intros [u Hu]. discriminate Hu.
  - split; [read_look|]. split; [easy|]. intros [u Hu]. discriminate Hu.
  - split; [read_look|]. split; [easy|]. intros [u Hu]. discriminate Hu.
  - split; [read_look|]. split; [easy|]. intros [u Hu]. discriminate Hu.
  - split; [read_look|]. split; [easy|]. intros [u Hu]. discriminate Hu.
  - split; [read_look|]. split; [easy|]. intros [u Hu]. discriminate Hu.
  - split; [read_look|]. split; [easy|]. intros [u Hu]. discriminate Hu.
  - intros e d Hc. split.
    + apply adds_one_settled. intros m items alts stack Hm. rewrite run_cons.
      replace (step _ (c_ "\")) with (Done (set_mode MEsc (mkState m items alts stack))) by now destruct Hm.
      cbn [obind]. rewrite <- (app_nil_r e). now rewrite (run_escape e d).
    + split; [easy|]. intros [u Hu]. discriminate Hu.
  - intros c i Hc. split.
    + apply adds_one_settled. destruct (perl_item _ _ Hc) as (n & p & ->). apply escape_perl in Hc. intros m items alts stack Hm. rewrite run_cons.
      replace (step _ (c_ "\")) with (Done (mkState MEsc items alts stack)) by now destruct Hm.
      cbn [obind]. rewrite run_cons. cbn [step st_mode]. rewrite Hc. reflexivity.
    + split; [easy|]. intros [u Hu]. discriminate Hu.
  - intros t k Hk. split; [now apply adds_one_settled, adds_one_class|now apply (class_proper t k)].
  - intros q k t r Hq Ht [Hs (t0 & l0 & l & -> & H1 & H2 & ->)]. split.
    + apply adds_one_settled, adds_one_opens; [exact Hq|now apply reads_branches|exact Hs].
    + apply proper_app. now apply (opens_proper q k).
  - intros t r Ht [H Hp]. split; [exact Hp|]. intros m items alts stack Hm.
    destruct (H m items alts stack Hm) as (m' & [Hm' Hr] & E). exists m'. split; [exact Hm'|]. split; [intros; contradiction|exact E].
  - intros t r o op min max Ht [Hp IH] Hop Ho. split; [now apply proper_app|]. intros m items alts stack Hm.
    rewrite run_app. destruct (IH m items alts stack Hm) as (m' & Hm' & Hr & ->). cbn [obind]. exists MRep.
    split; [constructor|]. split; [reflexivity|]. apply run_operator; [exact Hop|exact Hm'|auto].
  - intros t r o op min max Ht [Hp IH] Hop Ho. split; [now apply proper_app|]. intros m items alts stack Hm.
    rewrite run_app. destruct (IH m items alts stack Hm) as (m' & Hm' & Hr & ->). cbn [obind]. exists MNormal.
    split; [constructor|]. split; [discriminate|]. rewrite run_app, (run_operator _ _ _ Hop); [reflexivity|exact Hm'|auto].
  - split; [intros [u Hu]; discriminate Hu|]. exists []. split; [reflexivity|]. split; [apply adds_nil|easy].
  - intros t r o Ht [Hp IH]. split; [apply Hp|]. exists [r]. split; [reflexivity|]. split; [|easy].
    intros m items alts stack Hm. destruct (IH m items alts stack Hm) as (m' & Hm' & _ & E). now exists m'.
  - intros t r o u r' Ht [Hp IH] Hu [Hs (l & -> & Hl & Hn)] Hne. split; [now apply proper_app|]. exists (r :: l).
    split; [|split; [|easy]].
    + specialize (Hn Hne). destruct l; [easy|reflexivity].
    + apply (adds_app t u [r] l); [|exact Hl].
      intros m items alts stack Hm. destruct (IH m items alts stack Hm) as (m' & Hm' & _ & E). now exists m'.
  - intros t r Ht [Hs (l & -> & Hl & _)]. split; [exact Hs|]. exists t, l, []. cbn [bars flat_map cats map].
    rewrite app_nil_r. repeat split; [exact Hl|constructor].
  - intros t r u r' Ht [Hs (l & -> & Hl & _)] Hu [Hs' (t0 & l0 & k & -> & H0 & Hk & ->)]. split.
    + intros [v Hv]. destruct t as [|c t]; [discriminate Hv|]. injection Hv as -> _. apply Hs. now exists t.
    + exists t, l, ((t0, l0) :: k). split; [|split; [exact Hl|split; [now constructor|reflexivity]]].
      cbn [bars flat_map fst]. now rewrite <- app_assoc.
Qed.
Lemma alternatives_parse t r : alternatives t r -> parse_syntax t = Done r.
Proof.
  intros H. apply syntax_read in H as [_ (t0 & l0 & l & -> & H0 & Hl & ->)]. apply parse_syntax_reads. now apply reads_branches.
Qed.
