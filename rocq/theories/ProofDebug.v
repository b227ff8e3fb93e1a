(** Proofs about [Debug]. *)
From Verif Require Export SpecDebug ProofDecimal ProofCaptures.
Require Import HexadecimalString HexadecimalN HexadecimalFacts Lia.

Section Ind.
  Context (P : dbg -> Prop) (Hs : forall s, P (DStr s)) (Hn : forall n, P (DNum n)) (Hu : P DUnit)
    (Ht : forall n l, Forall P l -> P (DTuple n l)) (Hr : forall n l, Forall (fun x => P (snd x)) l -> P (DStruct n l))
    (Hl : forall l, Forall P l -> P (DList l)).
  Fixpoint dbg_ind' (d : dbg) : P d :=
    match d with
    | DStr s => Hs s
    | DNum n => Hn n
    | DUnit => Hu
    | DTuple n l => Ht n l ((fix go l := match l return Forall P l with [] => Forall_nil _ | x :: l => Forall_cons _ (dbg_ind' x) (go l) end) l)
    | DStruct n l => Hr n l ((fix go l := match l return Forall (fun x => P (snd x)) l with [] => Forall_nil _ | x :: l => Forall_cons _ (dbg_ind' (snd x)) (go l) end) l)
    | DList l => Hl l ((fix go l := match l return Forall P l with [] => Forall_nil _ | x :: l => Forall_cons _ (dbg_ind' x) (go l) end) l)
    end.
End Ind.

Lemma dec_inj a b : dec a = dec b -> a = b.
Proof. intros E. pose proof (dec_decimal a) as (_ & _ & Ha & _). pose proof (dec_decimal b) as (_ & _ & Hb & _). congruence. Qed.

(** * Chars *)
Lemma s_inj a b : s_ a = s_ b -> a = b.
Proof.
  revert b. induction a as [|x a IH]; intros [|y b]; cbn [s_]; try easy. intros E. injection E as E1 E2. f_equal; [|now apply IH].
  unfold c_ in E1. apply (f_equal ascii_of_N) in E1. now rewrite !ascii_N_embedding in E1.
Qed.
Lemma hex_inj a b : hex_digits a = hex_digits b -> a = b.
Proof.
  unfold hex_digits. intros E. apply s_inj in E.
  assert (H : forall n, NilZero.uint_of_string (NilZero.string_of_uint (N.to_hex_uint n)) = Some (N.to_hex_uint n)).
  { intros n. apply NilZero.usu. intros En. assert (Hu := HexadecimalN.Unsigned.to_of (N.to_hex_uint n)).
    rewrite HexadecimalN.Unsigned.of_to, En in Hu. discriminate Hu. }
  apply (f_equal NilZero.uint_of_string) in E. rewrite !H in E. injection E as E. apply (f_equal N.of_hex_uint) in E.
  now rewrite !HexadecimalN.Unsigned.of_to in E.
Qed.
Lemma hex_ident n : Forall (fun c => ident c = true) (hex_digits n).
Proof.
  unfold hex_digits. assert (H : forall u, Forall (fun c => ident c = true) (s_ (NilEmpty.string_of_uint u))) by (induction u; constructor; (reflexivity || assumption)).
  unfold NilZero.string_of_uint. destruct (N.to_hex_uint n) eqn:E; try apply H. repeat constructor.
Qed.
Lemma dec_ident n : Forall (fun c => ident c = true) (dec n).
Proof.
  pose proof (dec_decimal n) as (_ & H & _). eapply Forall_impl; [|exact H]. intros c [H1 H2]. unfold ident.
  apply N.leb_le in H1, H2. rewrite H1, H2. now rewrite !orb_true_r.
Qed.
(** What does not continue an identifier. *)
Definition stops (r : str) : Prop := match r with [] => True | c :: _ => ident c = false end.
Lemma ident_inj a b r r' : Forall (fun c => ident c = true) a -> Forall (fun c => ident c = true) b -> stops r -> stops r' ->
  a ++ r = b ++ r' -> a = b /\ r = r'.
Proof.
  intros Ha. revert b. induction Ha as [|c a Hc Ha IH]; intros b Hb Hr Hr' E; destruct Hb as [|d b Hd Hb].
  - easy.
  - cbn in E. subst r. cbn in Hr. congruence.
  - cbn in E. subst r'. cbn in Hr'. congruence.
  - cbn in E. injection E as -> E. destruct (IH b Hb Hr Hr' E) as [-> ->]. easy.
Qed.

Section Text.
  Context (printable : char -> bool).
  Notation escape := (Debug.escape printable).
  Notation quoted := (Debug.quoted printable).
  Notation compact := (Debug.compact printable).
  Notation pretty := (Debug.pretty printable).
  Definition unshort (k : char) : option char :=
    if k =? c_ "0" then Some 0 else if k =? c_ "t" then Some 9 else if k =? c_ "r" then Some 13 else if k =? c_ "n" then Some 10
    else if k =? c_ "\" then Some (c_ "\") else if k =? 34 then Some 34 else None.
  Lemma escape_shape c : escape c = [c] /\ c <> c_ "\" /\ c <> 34 /\ printable c = true /\ c <> 10 \/
    (exists k, escape c = [c_ "\"; k] /\ unshort k = Some c) \/ escape c = s_ "\u{" ++ hex_digits c ++ s_ "}".
  Proof.
    unfold Debug.escape. destruct (N.eqb_spec c 0) as [->|]; [right; left; now exists (c_ "0")|].
    destruct (N.eqb_spec c 9) as [->|]; [right; left; now exists (c_ "t")|].
    destruct (N.eqb_spec c 13) as [->|]; [right; left; now exists (c_ "r")|].
    destruct (N.eqb_spec c 10) as [->|]; [right; left; now exists (c_ "n")|].
    destruct (N.eqb_spec c (c_ "\")) as [->|]; [right; left; now exists (c_ "\")|].
    destruct (N.eqb_spec c 34) as [->|]; [right; left; now exists 34|].
    destruct (printable c) eqn:Hp; [left; repeat split; assumption|now right; right].
  Qed.
  Lemma escape_inj c c' x x' : escape c ++ x = escape c' ++ x' -> c = c' /\ x = x'.
  Proof.
    destruct (escape_shape c) as [(-> & H1 & _)|[(k & -> & Hk)| ->]]; destruct (escape_shape c') as [(-> & H1' & _)|[(k' & -> & Hk')| ->]];
      cbn [app s_]; rewrite <- ?app_assoc; intros E; injection E; intros; subst; try congruence; try (now split); try discriminate.
    - split; congruence.
    - match goal with H : _ ++ _ = _ ++ _ |- _ => apply ident_inj in H as [Hh Hx]; [apply hex_inj in Hh|apply hex_ident|apply hex_ident|reflexivity|reflexivity] end.
      cbn in Hx. injection Hx as Hx. now split.
  Qed.
  Lemma escape_quote c x r : escape c ++ x <> 34 :: r.
  Proof. destruct (escape_shape c) as [(-> & _ & H & _)|[(k & -> & _)| ->]]; cbn; congruence. Qed.
  Lemma quoted_inj s : forall s' r r', quoted s ++ r = quoted s' ++ r' -> s = s' /\ r = r'.
  Proof.
    unfold Debug.quoted. cbn [app]. intros s' r r' E. injection E as E. revert s' E. induction s as [|c s IH]; intros [|c' s'] E; cbn [map List.concat app] in E.
    - injection E as ->. easy.
    - exfalso. rewrite <- !app_assoc in E. symmetry in E. now apply escape_quote in E.
    - exfalso. rewrite <- !app_assoc in E. now apply escape_quote in E.
    - rewrite <- !app_assoc in E. apply escape_inj in E as [-> E]. rewrite !app_assoc in E. destruct (IH s') as [-> ->]; [|easy]. now rewrite <- !app_assoc in *.
  Qed.

  (** * Lists of fields *)
  Section Fields.
    Context {A : Type} (item : A -> str) (ok : A -> Prop) (delim : str -> Prop).
    Definition separable (x : A) : Prop := forall y r r', ok y -> delim r -> delim r' -> item x ++ r = item y ++ r' -> x = y /\ r = r'.
    Context (close : str) (Hcomma : forall r, delim (s_ ", " ++ r)) (Hclose : forall r, delim (close ++ r)).
    Context (Hnot : match close with [] => False | c :: _ => c <> c_ "," end).
    Lemma more_inj l : Forall separable l -> forall l' r r', Forall ok l' ->
      List.concat (map (fun y => s_ ", " ++ item y) l) ++ close ++ r = List.concat (map (fun y => s_ ", " ++ item y) l') ++ close ++ r' -> l = l' /\ r = r'.
    Proof.
      induction 1 as [|x l Hx Hl IH]; intros l' r r' Hok E; destruct Hok as [|y l' Hy Hok]; cbn [map List.concat app] in E.
      - apply app_inv_head in E. easy.
      - exfalso. destruct close; [easy|]. cbn in E. injection E as ->. easy.
      - exfalso. destruct close; [easy|]. cbn in E. injection E as <-. easy.
      - rewrite <- !app_assoc in E. apply app_inv_head in E.
        assert (Hd : forall m q, delim (List.concat (map (fun y => s_ ", " ++ item y) m) ++ close ++ q)).
        { intros [|z m] q; cbn [map List.concat app]; [apply Hclose|]. rewrite <- !app_assoc. apply Hcomma. }
        destruct (Hx _ _ _ Hy (Hd _ _) (Hd _ _) E) as [-> E']. destruct (IH _ _ _ Hok E') as [-> ->]. easy.
    Qed.
    Lemma commas_inj x l y l' r r' : Forall separable (x :: l) -> Forall ok (y :: l') ->
      commas (map item (x :: l)) ++ close ++ r = commas (map item (y :: l')) ++ close ++ r' -> x :: l = y :: l' /\ r = r'.
    Proof.
      intros Hs Hok E. inversion_clear Hs as [|? ? Hx Hl]. inversion_clear Hok as [|? ? Hy Hl']. cbn [map commas] in E. rewrite !map_map, <- !app_assoc in E.
      assert (Hd : forall m q, delim (List.concat (map (fun y => s_ ", " ++ item y) m) ++ close ++ q)).
      { intros [|z m] q; cbn [map List.concat app]; [apply Hclose|]. rewrite <- !app_assoc. apply Hcomma. }
      destruct (Hx _ _ _ Hy (Hd _ _) (Hd _ _) E) as [-> E']. destruct (more_inj l Hl _ _ _ Hl' E') as [-> ->]. easy.
    Qed.
  End Fields.

  (** * Kinds of values, by the first char *)
  Definition class (c : char) : N :=
    if c =? 34 then 0 else if (c_ "0" <=? c) && (c <=? c_ "9") then 1 else if c =? c_ "(" then 2 else if ident c then 3
    else if c =? c_ "[" then 4 else 5.
  Definition kind (d : dbg) : N :=
    match d with DStr _ => 0 | DNum _ => 1 | DUnit => 2 | DTuple _ _ | DStruct _ _ => 3 | DList _ => 4 end.
  Lemma name_class n : a_name n = true -> exists c t, n = c :: t /\ class c = 3.
  Proof.
    unfold a_name. destruct n as [|c t]; [easy|]. intros [H1 H2]%andb_prop. exists c, t. split; [reflexivity|].
    cbn [forallb] in H2. apply andb_prop in H2 as [H2 _]. unfold class. apply negb_true_iff in H1. rewrite H1, H2.
    destruct (N.eqb_spec c 34) as [->|]; [discriminate H2|]. destruct (N.eqb_spec c (c_ "(")) as [->|]; [discriminate H2|]. reflexivity.
  Qed.
  Lemma name_ident n : a_name n = true -> Forall (fun c => ident c = true) n.
  Proof. unfold a_name. intros [_ H]%andb_prop. now apply Forall_forall, forallb_forall. Qed.
  Lemma dec_class n : exists c t, dec n = c :: t /\ class c = 1.
  Proof.
    pose proof (dec_decimal n) as (Hn & Hd & _). destruct (dec n) as [|c t]; [easy|]. exists c, t. split; [reflexivity|].
    inversion_clear Hd as [|? ? [H1 H2] _]. unfold class. destruct (N.eqb_spec c 34) as [->|]; [now vm_compute in H1|].
    apply N.leb_le in H1, H2. now rewrite H1, H2.
  Qed.
  Lemma text_class alt d : proper d = true -> exists c t, debug_text printable alt d = c :: t /\ class c = kind d.
  Proof.
    assert (Hname : forall n u, a_name n = true -> exists c t, n ++ u = c :: t /\ class c = 3).
    { intros n u Hn. destruct (name_class n Hn) as (c & t & -> & Hc). now exists c, (t ++ u). }
    assert (Hname' : forall n, a_name n = true -> exists c t, n = c :: t /\ class c = 3) by (intros n Hn; now apply name_class).
    destruct d as [s|n| |n l|n l|l]; cbn [proper kind]; intros Hp.
    - destruct alt; eexists _, _; (split; [reflexivity|]); reflexivity.
    - destruct alt; apply dec_class.
    - destruct alt; eexists _, _; (split; [reflexivity|]); reflexivity.
    - apply andb_prop in Hp as [Hn _]. destruct alt, l; cbn [debug_text Debug.compact Debug.pretty]; auto.
    - apply andb_prop in Hp as [[Hn _]%andb_prop _]. destruct alt, l; cbn [debug_text Debug.compact Debug.pretty]; auto.
    - destruct alt, l; eexists _, _; (split; [reflexivity|]); reflexivity.
  Qed.
  Lemma same_kind alt d d' r r' : proper d = true -> proper d' = true ->
    debug_text printable alt d ++ r = debug_text printable alt d' ++ r' -> kind d = kind d'.
  Proof.
    intros H H' E. destruct (text_class alt d H) as (c & t & Ht & <-). destruct (text_class alt d' H') as (c' & t' & Ht' & <-).
    rewrite Ht, Ht' in E. cbn in E. now injection E as ->.
  Qed.
  Lemma properly l : forallb proper l = true -> Forall (fun d => proper d = true) l.
  Proof. intros H. now apply Forall_forall, forallb_forall. Qed.
  Lemma properly_named l : forallb (fun x => a_name (fst x) && proper (snd x)) l = true -> Forall (fun x : str * dbg => a_name (fst x) && proper (snd x) = true) l.
  Proof. intros H. apply Forall_forall. now apply forallb_forall. Qed.

  (** * [{:?}] *)
  Definition delim (r : str) : Prop :=
    match r with
    | [] => True
    | c :: r => c = c_ "," \/ c = c_ ")" \/ c = c_ "]" \/ c = c_ " " /\ exists r', r = c_ "}" :: r'
    end.
  Lemma delim_stops r : delim r -> stops r.
  Proof. destruct r as [|c r]; [easy|]. intros [->|[->|[->|[-> _]]]]; reflexivity. Qed.
  Notation single d := (forall d' r r', proper d = true -> proper d' = true -> delim r -> delim r' -> compact d ++ r = compact d' ++ r' -> d = d' /\ r = r').
  Lemma delim_comma r : delim (s_ ", " ++ r). Proof. now left. Qed.
  Lemma singles l : Forall (fun d => single d) l -> Forall (fun d => proper d = true) l -> Forall (separable compact (fun d => proper d = true) delim) l.
  Proof. intros H. induction H as [|x l Hx Hl IH]; intros Hp; inversion_clear Hp; constructor; [|now apply IH]. intros y r r'. now apply Hx. Qed.
  Lemma fields l : Forall (fun x => single (snd x)) l -> Forall (fun x : str * dbg => a_name (fst x) && proper (snd x) = true) l ->
    Forall (separable (fun x : str * dbg => fst x ++ s_ ": " ++ compact (snd x)) (fun x => a_name (fst x) && proper (snd x) = true) delim) l.
  Proof.
    intros H. induction H as [|[f d] l Hx Hl IH]; intros Hp; inversion_clear Hp as [|? ? [Hf Hd]%andb_prop Hp']; constructor; [|now apply IH].
    intros [f' d'] r r' [Hf' Hd']%andb_prop Hr Hr' E. cbn [fst snd] in *. rewrite <- !app_assoc in E.
    apply ident_inj in E as [-> E]; [|now apply name_ident|now apply name_ident|reflexivity|reflexivity]. apply app_inv_head in E.
    destruct (Hx _ _ _ Hd Hd' Hr Hr' E) as [-> ->]. easy.
  Qed.
  Lemma compact_inj d : single d.
  Proof.
    induction d as [s|n| |n l IH|n l IH|l IH] using dbg_ind'; intros d' r r' Hp Hp' Hr Hr' E; pose proof (same_kind false _ _ _ _ Hp Hp' E) as Hk;
      destruct d' as [s'|n'| |n' l'|n' l'|l']; try discriminate Hk; clear Hk; cbn [proper] in Hp, Hp'.
    - apply quoted_inj in E as [-> ->]. easy.
    - apply ident_inj in E as [E%dec_inj ->]; [subst; easy|apply dec_ident|apply dec_ident|now apply delim_stops|now apply delim_stops].
    - apply app_inv_head in E. easy.
    - apply andb_prop in Hp as [Hn Hl%properly]. apply andb_prop in Hp' as [Hn' Hl'%properly].
      destruct l as [|x l], l' as [|x' l']; cbn [Debug.compact] in E; rewrite <- ?app_assoc in E;
        apply ident_inj in E as [-> E]; try (now apply name_ident); try (now apply delim_stops); try reflexivity.
      + now subst.
      + exfalso. subst r. cbn in Hr. intuition discriminate.
      + exfalso. subst r'. cbn in Hr'. intuition discriminate.
      + apply app_inv_head in E. destruct (commas_inj compact (fun d => proper d = true) delim (s_ ")") delim_comma (fun r => or_intror (or_introl eq_refl)) ltac:(discriminate) _ _ _ _ _ _ (singles _ IH Hl) Hl' E) as [-> ->]. easy.
    - exfalso. apply andb_prop in Hp as [Hn Hl%properly]. apply andb_prop in Hp' as [[Hn' He]%andb_prop _].
      destruct l as [|x l], l' as [|x' l']; try discriminate He; cbn [Debug.compact] in E; rewrite <- ?app_assoc in E;
        apply ident_inj in E as [-> E]; try (now apply name_ident); try (now apply delim_stops); try reflexivity.
      + subst r. cbn in Hr. destruct Hr as [H|[H|[H|[_ [z H]]]]]; discriminate.
      + discriminate E.
    - exfalso. apply andb_prop in Hp' as [Hn' Hl'%properly]. apply andb_prop in Hp as [[Hn He]%andb_prop _].
      destruct l as [|x l], l' as [|x' l']; try discriminate He; cbn [Debug.compact] in E; rewrite <- ?app_assoc in E;
        apply ident_inj in E as [-> E]; try (now apply name_ident); try (now apply delim_stops); try reflexivity.
      + subst r'. cbn in Hr'. destruct Hr' as [H|[H|[H|[_ [z H]]]]]; discriminate.
      + discriminate E.
    - apply andb_prop in Hp as [[Hn He]%andb_prop Hl%properly_named]. apply andb_prop in Hp' as [[Hn' He']%andb_prop Hl'%properly_named].
      destruct l as [|x l]; [discriminate He|]. destruct l' as [|x' l']; [discriminate He'|]. cbn [Debug.compact] in E. rewrite <- ?app_assoc in E.
      apply ident_inj in E as [-> E]; try (now apply name_ident); try reflexivity. apply app_inv_head in E.
      destruct (commas_inj _ _ delim (s_ " }") delim_comma (fun r => or_intror (or_intror (or_intror (conj eq_refl (ex_intro _ r eq_refl))))) ltac:(discriminate) _ _ _ _ _ _ (fields _ IH Hl) Hl' E) as [-> ->]. easy.
    - apply properly in Hp, Hp'. destruct l as [|x l], l' as [|x' l']; cbn [Debug.compact] in E; rewrite <- ?app_assoc in E; apply app_inv_head in E.
      + cbn in E. now injection E as ->.
      + exfalso. inversion_clear Hp' as [|? ? Hx _]. destruct (text_class false x' Hx) as (c & t & Ht & Hc). cbn [debug_text] in Ht.
        cbn [map commas] in E. rewrite Ht in E. cbn in E. injection E as <- E. destruct x'; discriminate Hc.
      + exfalso. inversion_clear Hp as [|? ? Hx _]. destruct (text_class false x Hx) as (c & t & Ht & Hc). cbn [debug_text] in Ht.
        cbn [map commas] in E. rewrite Ht in E. cbn in E. injection E as -> E. destruct x; discriminate Hc.
      + destruct (commas_inj compact (fun d => proper d = true) delim (s_ "]") delim_comma (fun r => or_intror (or_intror (or_introl eq_refl))) ltac:(discriminate) _ _ _ _ _ _ (singles _ IH Hp) Hp' E) as [-> ->]. easy.
  Qed.
End Text.
