(** Proofs about [Debug]: [{:#?}], and the derived implementations. *)
From Verif Require Export ProofDebug.
Require Import Lia.

(** * Padding *)
Definition at_line (b : bool) (t : str) : bool := match rev t with [] => b | c :: _ => c =? 10 end.
Lemma at_line_cons b c t : at_line b (c :: t) = at_line (c =? 10) t.
Proof. unfold at_line. cbn [rev]. now destruct (rev t) as [|x l]. Qed.
Lemma at_line_end b t c : at_line b (t ++ [c]) = (c =? 10).
Proof. unfold at_line. now rewrite rev_app_distr. Qed.
Lemma padded_app b t u : padded b (t ++ u) = padded b t ++ padded (at_line b t) u.
Proof.
  revert b. induction t as [|c t IH]; intros b; [reflexivity|]. cbn [app padded]. rewrite IH, at_line_cons, <- app_assoc. reflexivity.
Qed.
Definition not_blank (r : str) : Prop := match r with [] => False | c :: _ => c <> c_ " " end.
Lemma padded_inj t : forall b t' r r', at_line b t = true -> at_line b t' = true -> not_blank r -> not_blank r' ->
  padded b t ++ r = padded b t' ++ r' -> t = t' /\ r = r'.
Proof.
  induction t as [|c t IH]; intros b [|c' t'] r r' Ht Ht' Hr Hr' E.
  - easy.
  - exfalso. cbn in Ht. subst b. destruct r as [|x r]; [easy|]. cbn in E. injection E as -> _. now apply Hr.
  - exfalso. cbn in Ht'. subst b. destruct r' as [|x r']; [easy|]. cbn in E. injection E as <- _. now apply Hr'.
  - cbn [padded] in E. rewrite <- !app_assoc in E. apply app_inv_head in E. cbn [app] in E. injection E as <- E.
    rewrite at_line_cons in Ht, Ht'. destruct (IH _ _ _ _ Ht Ht' Hr Hr' E) as [-> ->]. easy.
Qed.
Definition lines_of {A} (item : A -> str) (l : list A) : str := List.concat (map (fun x => item x ++ s_ "," ++ [10]) l).
Lemma lines_at_line {A} (item : A -> str) l : at_line true (lines_of item l) = true.
Proof.
  destruct l as [|x l] using rev_ind; [reflexivity|]. unfold lines_of. rewrite map_app, concat_app. cbn [map List.concat]. rewrite app_nil_r, !app_assoc.
  now rewrite at_line_end.
Qed.
Lemma lined_all {A} (item : A -> str) l : List.concat (map (fun x => lined (item x)) l) = padded true (lines_of item l).
Proof.
  induction l as [|x l IH]; [reflexivity|]. change (lines_of item (x :: l)) with ((item x ++ s_ "," ++ [10]) ++ lines_of item l).
  rewrite padded_app. cbn [map List.concat]. rewrite IH. unfold lined. f_equal. f_equal. now rewrite !app_assoc, at_line_end.
Qed.
Definition comma_next (r : str) : Prop := match r with [] => True | c :: _ => c = c_ "," end.
Lemma lines_inj {A} (item : A -> str) (ok : A -> Prop) l : Forall (separable item ok comma_next) l -> forall l', Forall ok l' ->
  (forall x, ok x -> item x <> []) -> Forall (fun x => item x <> []) l -> lines_of item l = lines_of item l' -> l = l'.
Proof.
  unfold lines_of. induction 1 as [|x l Hx Hl IH]; intros l' Hok Hne Hn E; destruct Hok as [|y l' Hy Hok]; cbn [map List.concat] in E.
  - reflexivity.
  - destruct (item y) eqn:Ey; [now apply Hne in Ey|discriminate E].
  - inversion_clear Hn as [|? ? Hnx _]. destruct (item x); [easy|discriminate E].
  - inversion_clear Hn as [|? ? _ Hn']. rewrite <- !app_assoc in E. apply Hx in E as [-> E']; [|exact Hy|reflexivity|reflexivity]. apply app_inv_head in E'. injection E' as E'. now rewrite (IH l').
Qed.
Lemma padded_fields {A} (item : A -> str) (ok : A -> Prop) l l' close r r' : Forall (separable item ok comma_next) l -> Forall ok l -> Forall ok l' ->
  (forall x, ok x -> item x <> []) -> not_blank close ->
  List.concat (map (fun x => lined (item x)) l) ++ close ++ r = List.concat (map (fun x => lined (item x)) l') ++ close ++ r' -> l = l' /\ r = r'.
Proof.
  intros Hs Hok Hok' Hne Hb E. rewrite !lined_all in E. apply padded_inj in E as [E1 E2]; try apply lines_at_line; try (now destruct close).
  apply app_inv_head in E2. split; [|exact E2]. apply (lines_inj item ok); try assumption. eapply Forall_impl; [|exact Hok]. exact Hne.
Qed.

Section Text.
  Context (printable : char -> bool).
  Notation pretty := (Debug.pretty printable).
  Notation single d := (forall d' r r', proper d = true -> proper d' = true -> comma_next r -> comma_next r' -> pretty d ++ r = pretty d' ++ r' -> d = d' /\ r = r').
  Lemma comma_stops r : comma_next r -> stops r.
  Proof. destruct r as [|c r]; [easy|]. intros ->. reflexivity. Qed.
  Lemma pretty_some d : proper d = true -> pretty d <> [].
  Proof. intros H. destruct (text_class printable true d H) as (c & t & Ht & _). cbn [debug_text] in Ht. now rewrite Ht. Qed.
  Lemma pretty_singles l : Forall (fun d => single d) l -> Forall (fun d => proper d = true) l -> Forall (separable pretty (fun d => proper d = true) comma_next) l.
  Proof. intros H. induction H as [|x l Hx Hl IH]; intros Hp; inversion_clear Hp; constructor; [|now apply IH]. intros y r r'. now apply Hx. Qed.
  Lemma pretty_fields l : Forall (fun x => single (snd x)) l -> Forall (fun x : str * dbg => a_name (fst x) && proper (snd x) = true) l ->
    Forall (separable (fun x : str * dbg => fst x ++ s_ ": " ++ pretty (snd x)) (fun x => a_name (fst x) && proper (snd x) = true) comma_next) l.
  Proof.
    intros H. induction H as [|[f d] l Hx Hl IH]; intros Hp; inversion_clear Hp as [|? ? [Hf Hd]%andb_prop Hp']; constructor; [|now apply IH].
    intros [f' d'] r r' [Hf' Hd']%andb_prop Hr Hr' E. cbn [fst snd] in *. rewrite <- !app_assoc in E.
    apply ident_inj in E as [-> E]; [|now apply name_ident|now apply name_ident|reflexivity|reflexivity]. apply app_inv_head in E.
    destruct (Hx _ _ _ Hd Hd' Hr Hr' E) as [-> ->]. easy.
  Qed.
  Lemma pretty_inj d : single d.
  Proof.
    induction d as [s|n| |n l IH|n l IH|l IH] using dbg_ind'; intros d' r r' Hp Hp' Hr Hr' E; pose proof (same_kind printable true _ _ _ _ Hp Hp' E) as Hk;
      destruct d' as [s'|n'| |n' l'|n' l'|l']; try discriminate Hk; clear Hk; cbn [proper] in Hp, Hp'.
    - apply quoted_inj in E as [-> ->]. easy.
    - apply ident_inj in E as [E%dec_inj ->]; [subst; easy|apply dec_ident|apply dec_ident|now apply comma_stops|now apply comma_stops].
    - apply app_inv_head in E. easy.
    - apply andb_prop in Hp as [Hn Hl%properly]. apply andb_prop in Hp' as [Hn' Hl'%properly].
      destruct l as [|x l], l' as [|x' l']; cbn [Debug.pretty] in E; rewrite <- ?app_assoc in E;
        apply ident_inj in E as [-> E]; try (now apply name_ident); try (now apply comma_stops); try reflexivity.
      + now subst.
      + exfalso. subst r. discriminate Hr.
      + exfalso. subst r'. discriminate Hr'.
      + apply app_inv_head, app_inv_head in E.
        destruct (padded_fields pretty (fun d => proper d = true) _ _ (s_ ")") _ _ (pretty_singles _ IH Hl) Hl Hl' pretty_some ltac:(discriminate) E) as [-> ->]. easy.
    - exfalso. apply andb_prop in Hp as [Hn Hl%properly]. apply andb_prop in Hp' as [[Hn' He]%andb_prop _].
      destruct l as [|x l], l' as [|x' l']; try discriminate He; cbn [Debug.pretty] in E; rewrite <- ?app_assoc in E;
        apply ident_inj in E as [-> E]; try (now apply name_ident); try (now apply comma_stops); try reflexivity.
      + subst r. discriminate Hr.
      + discriminate E.
    - exfalso. apply andb_prop in Hp' as [Hn' Hl'%properly]. apply andb_prop in Hp as [[Hn He]%andb_prop _].
      destruct l as [|x l], l' as [|x' l']; try discriminate He; cbn [Debug.pretty] in E; rewrite <- ?app_assoc in E;
        apply ident_inj in E as [-> E]; try (now apply name_ident); try (now apply comma_stops); try reflexivity.
      + subst r'. discriminate Hr'.
      + discriminate E.
    - apply andb_prop in Hp as [[Hn He]%andb_prop Hl%properly_named]. apply andb_prop in Hp' as [[Hn' He']%andb_prop Hl'%properly_named].
      destruct l as [|x l]; [discriminate He|]. destruct l' as [|x' l']; [discriminate He'|]. cbn [Debug.pretty] in E. rewrite <- ?app_assoc in E.
      apply ident_inj in E as [-> E]; try (now apply name_ident); try reflexivity. apply app_inv_head, app_inv_head in E.
      assert (Hne : forall x : str * dbg, a_name (fst x) && proper (snd x) = true -> fst x ++ s_ ": " ++ pretty (snd x) <> []).
      { intros [f d] _. cbn [fst]. now destruct f. }
      destruct (padded_fields _ _ _ _ (s_ "}") _ _ (pretty_fields _ IH Hl) Hl Hl' Hne ltac:(discriminate) E) as [-> ->]. easy.
    - apply properly in Hp, Hp'. destruct l as [|x l], l' as [|x' l']; cbn [Debug.pretty] in E; rewrite <- ?app_assoc in E.
      + apply app_inv_head in E. easy.
      + discriminate E.
      + discriminate E.
      + apply app_inv_head, app_inv_head in E.
        destruct (padded_fields pretty (fun d => proper d = true) _ _ (s_ "]") _ _ (pretty_singles _ IH Hp) Hp Hp' pretty_some ltac:(discriminate) E) as [-> ->]. easy.
  Qed.
  Lemma text_inj alternate d d' : proper d = true -> proper d' = true -> debug_text printable alternate d = debug_text printable alternate d' -> d = d'.
  Proof.
    intros H H' E. rewrite <- (app_nil_r (debug_text _ _ d)), <- (app_nil_r (debug_text _ _ d')) in E. destruct alternate.
    - now destruct (pretty_inj d d' [] [] H H' I I E).
    - now destruct (compact_inj printable d d' [] [] H H' I I E).
  Qed.

  (** * What [{:?}] consists of *)
  Notation visible := (plainly printable).
  Lemma ident_visible c : ident c = true -> visible c.
  Proof.
    intros H. right. unfold ident in H. repeat match goal with
      | H : _ || _ = true |- _ => apply orb_true_iff in H as [H|H]
      | H : _ && _ = true |- _ => apply andb_prop in H as [? ?]
      | H : (_ <=? _) = true |- _ => apply N.leb_le in H
      | H : (_ =? _) = true |- _ => apply N.eqb_eq in H; subst end; cbv [c_ N_of_ascii N_of_digits] in *; cbn in *; lia.
  Qed.
  Definition clear (t : str) : Prop := Forall (fun c => visible c /\ c <> 10) t.
  Lemma clear_app t u : clear t -> clear u -> clear (t ++ u).
  Proof. intros. apply Forall_app. now split. Qed.
  Lemma clear_ident t : Forall (fun c => ident c = true) t -> clear t.
  Proof. apply Forall_impl. intros c H. split; [now apply ident_visible|]. intros ->. discriminate H. Qed.
  Lemma clear_s x : forallb (fun c => (c_ " " <=? c) && (c <=? c_ "~")) (s_ x) = true -> clear (s_ x).
  Proof.
    intros H. apply Forall_forall. intros c Hc. apply forallb_forall with (x := c) in H; [|exact Hc]. apply andb_prop in H as [H1 H2].
    apply N.leb_le in H1, H2. split; [right; now split|]. intros ->. now vm_compute in H1.
  Qed.
  Lemma clear_quoted s : clear (Debug.quoted printable s).
  Proof.
    unfold Debug.quoted. assert (Hq : clear [34]) by (apply (clear_s """"); reflexivity).
    change (34 :: List.concat (map (Debug.escape printable) s) ++ [34]) with ([34] ++ List.concat (map (Debug.escape printable) s) ++ [34]).
    apply clear_app; [exact Hq|]. apply clear_app; [|exact Hq]. induction s as [|c s IH]; [constructor|]. cbn [map List.concat]. apply clear_app; [|exact IH].
    unfold Debug.escape. repeat match goal with |- clear (if ?b then _ else _) => destruct b eqn:? end; try (apply clear_s; reflexivity).
    - apply (clear_s "\"""). reflexivity.
    - constructor; [|constructor]. split; [now left|]. intros ->. discriminate.
    - apply clear_app; [apply clear_s; reflexivity|]. apply clear_app; [apply clear_ident, hex_ident|apply clear_s; reflexivity].
  Qed.
  Lemma clear_commas l : Forall clear l -> clear (commas l).
  Proof.
    intros H. destruct H as [|x l Hx Hl]; [constructor|]. cbn [commas]. apply clear_app; [exact Hx|].
    induction Hl as [|y l Hy Hl IH]; [constructor|]. cbn [map List.concat]. apply clear_app; [|exact IH]. apply clear_app; [apply clear_s; reflexivity|exact Hy].
  Qed.
  Lemma compact_clear d : proper d = true -> clear (Debug.compact printable d).
  Proof.
    induction d as [s|n| |n l IH|n l IH|l IH] using dbg_ind'; cbn [proper]; intros Hp.
    - apply clear_quoted.
    - apply clear_ident, dec_ident.
    - apply clear_s. reflexivity.
    - apply andb_prop in Hp as [Hn Hl%properly]. assert (H : Forall clear (map (Debug.compact printable) l)).
      { apply Forall_map. apply Forall_forall. intros x Hx. rewrite Forall_forall in IH, Hl. auto. }
      destruct l as [|x l]; cbn [Debug.compact]; [now apply clear_ident, name_ident|]. apply clear_app; [now apply clear_ident, name_ident|].
      apply clear_app; [apply clear_s; reflexivity|]. apply clear_app; [now apply clear_commas|apply clear_s; reflexivity].
    - apply andb_prop in Hp as [[Hn _]%andb_prop Hl%properly_named].
      assert (H : Forall clear (map (fun x => fst x ++ s_ ": " ++ Debug.compact printable (snd x)) l)).
      { apply Forall_map. apply Forall_forall. intros x Hx. rewrite Forall_forall in IH, Hl. destruct (andb_prop _ _ (Hl x Hx)) as [H1 H2].
        apply clear_app; [now apply clear_ident, name_ident|]. apply clear_app; [apply clear_s; reflexivity|]. auto. }
      destruct l as [|x l]; cbn [Debug.compact]; [now apply clear_ident, name_ident|]. apply clear_app; [now apply clear_ident, name_ident|].
      apply clear_app; [apply clear_s; reflexivity|]. apply clear_app; [now apply clear_commas|apply clear_s; reflexivity].
    - apply properly in Hp. cbn [Debug.compact]. apply clear_app; [apply clear_s; reflexivity|]. apply clear_app; [|apply clear_s; reflexivity].
      apply clear_commas, Forall_map, Forall_forall. intros x Hx. rewrite Forall_forall in IH, Hp. auto.
  Qed.
End Text.

(** * The derived implementations *)
Lemma map_inj {A B} (f : A -> B) : (forall x y, f x = f y -> x = y) -> forall l l', map f l = map f l' -> l = l'.
Proof. intros H. induction l as [|x l IH]; intros [|y l']; cbn; try easy. intros E. injection E as E1 E2. f_equal; auto. Qed.
Lemma forallb_map {A B} (f : A -> B) p l : (forall x, p (f x) = true) -> forallb p (map f l) = true.
Proof. intros H. induction l as [|x l IH]; [reflexivity|]. cbn. now rewrite H, IH. Qed.
Section Derived.
  Context {I : Type} (input : I -> dbg) (Hproper : forall i, proper (input i) = true) (Hinj : forall i j, input i = input j -> i = j).
  Lemma optional_inj a b : debug_optional input a = debug_optional input b -> a = b.
  Proof. destruct a, b. unfold debug_optional. intros E. injection E as E. f_equal. auto. Qed.
  Lemma parameter_inj a b : debug_parameter input a = debug_parameter input b -> a = b.
  Proof. destruct a, b. unfold debug_parameter. intros E. injection E as E1 E2. f_equal; auto. Qed.
  Lemma alternative_inj a b : debug_alternative input a = debug_alternative input b -> a = b.
  Proof. destruct a, b; unfold debug_alternative; intros E; try discriminate E; f_equal; [apply optional_inj|apply Hinj]; congruence. Qed.
  Lemma alternation_inj a b : debug_alternation input a = debug_alternation input b -> a = b.
  Proof.
    unfold debug_alternation. intros E. injection E as E. revert E. apply map_inj. intros x y Exy. injection Exy as Exy. revert Exy. apply map_inj. apply alternative_inj.
  Qed.
  Lemma single_expression_inj a b : debug_single_expression input a = debug_single_expression input b -> a = b.
  Proof.
    destruct a, b; unfold debug_single_expression; intros E; try discriminate E; f_equal;
      [apply alternation_inj|apply optional_inj|apply parameter_inj|apply Hinj|apply Hinj]; congruence.
  Qed.
  Lemma expression_inj a b : debug_expression input a = debug_expression input b -> a = b.
  Proof. unfold debug_expression. intros E. injection E as E. revert E. apply map_inj. apply single_expression_inj. Qed.
  Lemma parse_error_inj a b : debug_parse_error input a = debug_parse_error input b -> a = b.
  Proof.
    destruct a, b; unfold debug_parse_error; intros E; try discriminate E; try (injection E as E; f_equal; auto; fail); try reflexivity.
    injection E as E1 E2. f_equal; auto. destruct k, k0; reflexivity || discriminate E2.
  Qed.
  Lemma param_error_inj err a b : a <> Unmodelled -> debug_param_error input err a = debug_param_error input err b -> a = b.
  Proof.
    destruct a, b; unfold debug_param_error; intros Hu E; try discriminate E; try easy; injection E; intros; f_equal; auto.
  Qed.

  Lemma optional_proper o : proper (debug_optional input o) = true.
  Proof. cbn. now rewrite Hproper. Qed.
  Lemma parameter_proper o : proper (debug_parameter input o) = true.
  Proof. cbn. now rewrite Hproper. Qed.
  Lemma alternative_proper a : proper (debug_alternative input a) = true.
  Proof. destruct a; cbn; now rewrite Hproper. Qed.
  Lemma alternation_proper a : proper (debug_alternation input a) = true.
  Proof.
    unfold debug_alternation. cbn [proper forallb]. rewrite andb_true_r. change (a_name (s_ "Alternation")) with true. apply forallb_map. intros x. apply forallb_map, alternative_proper.
  Qed.
  Lemma single_expression_proper x : proper (debug_single_expression input x) = true.
  Proof.
    destruct x as [a|o|p|i|i]; unfold debug_single_expression; cbn [proper forallb]; rewrite ?alternation_proper, ?optional_proper, ?parameter_proper, ?Hproper; reflexivity.
  Qed.
  Lemma expression_proper e : proper (debug_expression input e) = true.
  Proof.
    unfold debug_expression. cbn [proper forallb]. rewrite andb_true_r. change (a_name (s_ "Expression")) with true. apply forallb_map, single_expression_proper.
  Qed.
  Lemma parse_error_proper e : proper (debug_parse_error input e) = true.
  Proof. destruct e; cbn [debug_parse_error proper forallb]; rewrite ?Hproper; try reflexivity. now destruct k. Qed.
  Lemma param_error_proper err e d : proper err = true -> debug_param_error input err e = Some d -> proper d = true.
  Proof.
    intros He. destruct e; cbn [debug_param_error]; intros E; try discriminate E; injection E as <-; cbn [proper forallb fst snd]; rewrite ?Hproper, ?He; reflexivity.
  Qed.
End Derived.
Lemma span_proper i : proper (debug_span i) = true. Proof. reflexivity. Qed.
Lemma span_inj i j : debug_span i = debug_span j -> i = j.
Proof. destruct i, j. unfold debug_span. cbn. intros E. injection E as -> -> ->. reflexivity. Qed.

Lemma tells_of {A} (d : A -> dbg) : (forall x, proper (d x) = true) -> (forall x y, d x = d y -> x = y) -> tells d.
Proof. intros Hp Hi printable alternate x y E. apply text_inj in E; auto. Qed.
(** Whatever the [Input]. *)
Lemma expression_tells {I} (input : I -> dbg) : (forall i, proper (input i) = true) -> (forall i j, input i = input j -> i = j) -> tells (debug_expression input).
Proof. intros. apply tells_of; [now apply expression_proper|now apply expression_inj]. Qed.
Lemma parse_error_tells {I} (input : I -> dbg) : (forall i, proper (input i) = true) -> (forall i j, input i = input j -> i = j) -> tells (debug_parse_error input).
Proof. intros. apply tells_of; [now apply parse_error_proper|now apply parse_error_inj]. Qed.
Lemma error_tells {I} (input : I -> dbg) : (forall i, proper (input i) = true) -> (forall i j, input i = input j -> i = j) ->
  forall err printable alternate x y d d', proper err = true -> debug_error input err x = Some d -> debug_error input err y = Some d' ->
  debug_text printable alternate d = debug_text printable alternate d' -> x = y.
Proof.
  intros Hp Hi err printable alternate x y d d' He Hx Hy E.
  assert (P : forall z w, debug_error input err z = Some w -> proper w = true).
  { intros [| e | e | | | | ] w; cbn [debug_error]; try discriminate; intros Ew.
    - injection Ew as <-. cbn [proper forallb]. now rewrite parse_error_proper.
    - destruct (debug_param_error input err e) eqn:Ee; [|discriminate Ew]. cbn in Ew. injection Ew as <-. cbn [proper forallb].
      now rewrite (param_error_proper input Hp _ _ _ He Ee). }
  apply text_inj in E; [|now apply (P x)|now apply (P y)]. subst d'.
  destruct x as [| e | e | | | | ], y as [| e' | e' | | | | ]; cbn [debug_error] in Hx, Hy; try discriminate.
  - f_equal. rewrite <- Hx in Hy. injection Hy as Hy. symmetry in Hy. now apply (parse_error_inj input Hi).
  - destruct (debug_param_error input err e') eqn:Ee; [|discriminate Hy]. cbn in Hx, Hy. injection Hx as <-. discriminate Hy.
  - destruct (debug_param_error input err e) eqn:Ee; [|discriminate Hx]. cbn in Hx, Hy. injection Hy as <-. discriminate Hx.
  - destruct (debug_param_error input err e) eqn:Ee; [|discriminate Hx]. destruct (debug_param_error input err e') eqn:Ee'; [|discriminate Hy].
    cbn in Hx, Hy. rewrite <- Hx in Hy. injection Hy as ->. f_equal. apply (param_error_inj input Hi err); [|congruence]. intros ->. discriminate Ee.
Qed.
(** One line. *)
Lemma compact_line printable d : proper d = true -> Forall (fun c => plainly printable c /\ c <> 10) (debug_text printable false d).
Proof. apply compact_clear. Qed.
