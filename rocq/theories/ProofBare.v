(** The two forms of [Debug] differ by their layout only. *)
From Verif Require Import ProofDebug3 SpecBare.

Fixpoint after (m : place_in_text) (t : str) : place_in_text := match t with [] => m | c :: t => after (next_place m c) t end.
(** No line break within a string literal. *)
Fixpoint calm (m : place_in_text) (t : str) : Prop := match t with [] => True | c :: t => (m = Outside_string \/ c <> 10) /\ calm (next_place m c) t end.
Lemma after_app t : forall m u, after m (t ++ u) = after (after m t) u.
Proof. induction t as [|c t IH]; intros m u; cbn; auto. Qed.
Lemma bare_app t : forall m u, bare m (t ++ u) = bare m t ++ bare (after m t) u.
Proof. induction t as [|c t IH]; intros m u; cbn [bare app after]; [reflexivity|]. now rewrite IH, app_assoc. Qed.
Lemma calm_app t : forall m u, calm m (t ++ u) <-> calm m t /\ calm (after m t) u.
Proof. induction t as [|c t IH]; intros m u; cbn [calm app after]; [tauto|]. rewrite IH. tauto. Qed.
Lemma padded_same t : forall m b, calm m t -> (b = true -> m = Outside_string) ->
  bare m (padded b t) = bare m t /\ after m (padded b t) = after m t /\ calm m (padded b t).
Proof.
  induction t as [|c t IH]; intros m b Hc Hb; [easy|]. cbn [padded]. destruct Hc as [Hc1 Hc2].
  assert (K : bare m (c :: padded (c =? 10) t) = bare m (c :: t) /\ after m (c :: padded (c =? 10) t) = after m (c :: t) /\ calm m (c :: padded (c =? 10) t)).
  { destruct (IH (next_place m c) (c =? 10) Hc2) as (I1 & I2 & I3).
    - intros E. apply N.eqb_eq in E. subst c. destruct Hc1 as [->|]; [reflexivity|easy].
    - cbn [bare after calm]. rewrite I1, I2. repeat split; assumption. }
  destruct b; [|exact K]. rewrite (Hb eq_refl) in *. destruct K as (K1 & K2 & K3). repeat split.
  - rewrite bare_app. exact K1.
  - rewrite after_app. exact K2.
  - now left.
  - now left.
  - now left.
  - now left.
  - exact (proj1 K3).
  - exact (proj2 K3).
Qed.

(** Whole: string literals are closed, without line breaks. *)
Definition whole_text (t : str) : Prop := after Outside_string t = Outside_string /\ calm Outside_string t.
Lemma whole_nil : whole_text []. Proof. now split. Qed.
Lemma whole_app t u : whole_text t -> whole_text u -> whole_text (t ++ u).
Proof. intros [A1 A2] [B1 B2]. split; [now rewrite after_app, A1|]. apply calm_app. now rewrite A1. Qed.
Lemma whole_bare t u : whole_text t -> bare Outside_string (t ++ u) = bare Outside_string t ++ bare Outside_string u.
Proof. intros [A _]. now rewrite bare_app, A. Qed.
Lemma whole_plain t : forallb (fun c => negb (c =? 34)) t = true -> whole_text t.
Proof.
  induction t as [|c t IH]; [intros; apply whole_nil|]. cbn [forallb]. intros H. apply andb_true_iff in H as [H1 H2].
  destruct (IH H2) as [I1 I2]. apply negb_true_iff in H1. unfold whole_text. cbn [after calm next_place]. rewrite H1. auto.
Qed.
Lemma ident_not_special c : ident c = true -> c <> 34 /\ c <> c_ "\" /\ c <> 10.
Proof. intros H. repeat split; intros ->; discriminate H. Qed.
Lemma whole_ident t : Forall (fun c => ident c = true) t -> whole_text t.
Proof.
  intros H. apply whole_plain. apply forallb_forall. rewrite Forall_forall in H. intros c Hc. apply H in Hc. apply ident_not_special in Hc.
  apply negb_true_iff, N.eqb_neq. tauto.
Qed.
Lemma whole_name n : a_name n = true -> whole_text n.
Proof. unfold a_name. intros H. apply andb_true_iff in H as [_ H]. apply whole_ident. now apply Forall_forall, forallb_forall. Qed.
Lemma in_ident t : Forall (fun c => ident c = true) t -> after In_string t = In_string /\ calm In_string t.
Proof.
  induction 1 as [|c t H _ [I1 I2]]; [easy|]. apply ident_not_special in H as (H1 & H2 & H3). cbn [after calm next_place].
  apply N.eqb_neq in H1, H2. rewrite H1, H2. auto.
Qed.
Lemma in_escape printable c : after In_string (escape printable c) = In_string /\ calm In_string (escape printable c).
Proof.
  destruct (escape_shape printable c) as [(-> & H1 & H2 & _ & H3)|[(k & -> & Hk)| ->]].
  - cbn [after calm next_place]. apply N.eqb_neq in H1, H2. rewrite H1, H2. auto.
  - cbn. repeat split; auto; right; try easy. intros ->. discriminate Hk.
  - destruct (in_ident (hex_digits c) (hex_ident c)) as [I1 I2].
    assert (E : after In_string (s_ "\u{") = In_string) by reflexivity.
    rewrite !after_app, E, I1. split; [reflexivity|]. rewrite !calm_app, E, I1. split; [|split].
    + cbn. repeat split; auto; now right.
    + exact I2.
    + cbn. split; [now right|exact I].
Qed.
Lemma whole_quoted printable s : whole_text (Debug.quoted printable s).
Proof.
  assert (H : after In_string (List.concat (map (escape printable) s)) = In_string /\ calm In_string (List.concat (map (escape printable) s))).
  { induction s as [|c s [I1 I2]]; [easy|]. destruct (in_escape printable c) as [E1 E2]. cbn [map List.concat]. rewrite after_app, calm_app, E1. auto. }
  destruct H as [H1 H2]. unfold Debug.quoted, whole_text. cbn [after calm]. change (next_place Outside_string 34) with In_string.
  rewrite after_app, calm_app, H1. cbn. repeat split; auto. right. easy.
Qed.

Lemma bare_commas l : Forall whole_text l ->
  whole_text (commas l) /\ bare Outside_string (commas l) = List.concat (map (bare Outside_string) l).
Proof.
  intros H. destruct H as [|x l Hx H]; [now split|]. cbn [commas map List.concat].
  assert (K : whole_text (List.concat (map (fun y => s_ ", " ++ y) l)) /\
    bare Outside_string (List.concat (map (fun y => s_ ", " ++ y) l)) = List.concat (map (bare Outside_string) l)).
  { induction H as [|y l Hy H [I1 I2]]; [now split|]. cbn [map List.concat]. split.
    - apply whole_app; [|exact I1]. apply whole_app; [now apply whole_plain|exact Hy].
    - rewrite whole_bare by (apply whole_app; [now apply whole_plain|exact Hy]). now rewrite I2. }
  destruct K as [K1 K2]. split; [now apply whole_app|]. now rewrite whole_bare, K2.
Qed.
Lemma bare_lined t : whole_text t -> whole_text (lined t) /\ bare Outside_string (lined t) = bare Outside_string t.
Proof.
  intros H. unfold lined.
  assert (W : whole_text (t ++ s_ "," ++ [10])) by (apply whole_app; [exact H|now apply whole_plain]).
  destruct (padded_same (t ++ s_ "," ++ [10]) Outside_string true (proj2 W) ltac:(reflexivity)) as (P1 & P2 & P3).
  split; [split; [now rewrite P2; apply W|exact P3]|]. rewrite P1, whole_bare by exact H. cbn. apply app_nil_r.
Qed.
Lemma bare_lines l : Forall whole_text l ->
  whole_text (List.concat (map lined l)) /\ bare Outside_string (List.concat (map lined l)) = List.concat (map (bare Outside_string) l).
Proof.
  induction 1 as [|t l H _ [I1 I2]]; [now split|]. cbn [map List.concat]. destruct (bare_lined t H) as [L1 L2].
  split; [now apply whole_app|]. now rewrite whole_bare, L2, I2.
Qed.

Ltac wholes := repeat first [apply whole_app | assumption | now apply whole_plain].
Lemma same_but_layout printable d : proper d = true ->
  whole_text (compact printable d) /\ whole_text (pretty printable d) /\
  bare Outside_string (pretty printable d) = bare Outside_string (compact printable d).
Proof.
  induction d as [s|n| |n l IH|n l IH|l IH] using dbg_ind'; cbn [proper]; intros Hp.
  - split; [apply whole_quoted|split; [apply whole_quoted|reflexivity]].
  - split; [apply whole_ident, dec_ident|split; [apply whole_ident, dec_ident|reflexivity]].
  - split; [now apply whole_plain|split; [now apply whole_plain|reflexivity]].
  - apply andb_true_iff in Hp as [Hn Hl]. apply whole_name in Hn. destruct l as [|x l]; [easy|].
    assert (K : Forall (fun d => whole_text (compact printable d) /\ whole_text (pretty printable d) /\ bare Outside_string (pretty printable d) = bare Outside_string (compact printable d)) (x :: l)).
    { rewrite Forall_forall in *. rewrite forallb_forall in Hl. intros d Hd. apply IH; auto. }
    clear IH Hl. cbn [compact pretty]. revert K. generalize (x :: l). clear x l. intros l K.
    destruct (bare_commas (map (compact printable) l)) as [C1 C2]; [apply Forall_map; revert K; apply Forall_impl; tauto|].
    destruct (bare_lines (map (pretty printable) l)) as [L1 L2]; [apply Forall_map; revert K; apply Forall_impl; tauto|].
    rewrite map_map in L1, L2. split; [|split].
    + wholes.
    + wholes.
    + rewrite !whole_bare by wholes. rewrite L2, C2, !map_map. f_equal. f_equal. change (bare Outside_string [10]) with (@nil char). cbn [app].
      f_equal. f_equal. apply map_ext_Forall. revert K. apply Forall_impl. tauto.
  - apply andb_true_iff in Hp as [Hn Hl]. apply andb_true_iff in Hn as [Hn _]. apply whole_name in Hn. destruct l as [|x l]; [easy|].
    assert (K : Forall (fun x => whole_text (fst x) /\ whole_text (compact printable (snd x)) /\ whole_text (pretty printable (snd x)) /\ bare Outside_string (pretty printable (snd x)) = bare Outside_string (compact printable (snd x))) (x :: l)).
    { rewrite Forall_forall in *. rewrite forallb_forall in Hl. intros d Hd. specialize (Hl d Hd). apply andb_true_iff in Hl as [H1 H2]. split; [now apply whole_name|]. apply IH; auto. }
    clear IH Hl. cbn [compact pretty]. revert K. generalize (x :: l). clear x l. intros l K.
    destruct (bare_commas (map (fun x => fst x ++ s_ ": " ++ compact printable (snd x)) l)) as [C1 C2].
    { apply Forall_map. revert K. apply Forall_impl. intros a (A1 & A2 & A3 & A4). wholes. }
    destruct (bare_lines (map (fun x => fst x ++ s_ ": " ++ pretty printable (snd x)) l)) as [L1 L2].
    { apply Forall_map. revert K. apply Forall_impl. intros a (A1 & A2 & A3 & A4). wholes. }
    rewrite map_map in L1, L2. split; [|split].
    + wholes.
    + wholes.
    + rewrite !whole_bare by wholes. rewrite L2, C2, !map_map. f_equal.
      change (bare Outside_string (s_ " {")) with (s_ "{"). change (bare Outside_string (s_ " { ")) with (s_ "{").
      change (bare Outside_string (s_ " }")) with (s_ "}"). change (bare Outside_string (s_ "}")) with (s_ "}"). change (bare Outside_string [10]) with (@nil char).
      cbn [app]. f_equal. f_equal. f_equal. apply map_ext_Forall. revert K. apply Forall_impl. intros a (A1 & A2 & A3 & A4).
      rewrite !whole_bare by wholes. do 2 f_equal. exact A4.
  - assert (K : Forall (fun d => whole_text (compact printable d) /\ whole_text (pretty printable d) /\ bare Outside_string (pretty printable d) = bare Outside_string (compact printable d)) l).
    { rewrite Forall_forall in *. rewrite forallb_forall in Hp. intros d Hd. apply IH; auto. }
    clear IH Hp.
    destruct (bare_commas (map (compact printable) l)) as [C1 C2]; [apply Forall_map; revert K; apply Forall_impl; tauto|].
    destruct (bare_lines (map (pretty printable) l)) as [L1 L2]; [apply Forall_map; revert K; apply Forall_impl; tauto|].
    rewrite map_map in L1, L2. destruct l as [|x l]; [split; [now apply whole_plain|split; [now apply whole_plain|reflexivity]]|]. cbn [compact pretty]. revert K C1 C2 L1 L2. generalize (x :: l). clear x l. intros l K C1 C2 L1 L2. split; [|split].
    + wholes.
    + wholes.
    + rewrite !whole_bare by wholes. rewrite L2, C2, !map_map. f_equal. change (bare Outside_string [10]) with (@nil char). cbn [app].
      f_equal. f_equal. apply map_ext_Forall. revert K. apply Forall_impl. tauto.
Qed.
Lemma layout_only printable d : proper d = true ->
  bare Outside_string (debug_text printable true d) = bare Outside_string (debug_text printable false d).
Proof. intros H. apply (same_but_layout printable d H). Qed.
Lemma expression_layout {I} (input : I -> dbg) printable : (forall i, proper (input i) = true) ->
  (forall e, bare Outside_string (debug_text printable true (debug_expression input e)) = bare Outside_string (debug_text printable false (debug_expression input e))) /\
  (forall e, bare Outside_string (debug_text printable true (debug_parse_error input e)) = bare Outside_string (debug_text printable false (debug_parse_error input e))).
Proof.
  intros H. split; intros e; apply layout_only; [now apply expression_proper|now apply parse_error_proper].
Qed.
