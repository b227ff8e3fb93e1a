(** How deep the regexes are nested. *)
From Coq Require Import PeanoNat.
From Verif Require Export Nest ProofParams2.

Lemma nest_run_app a b s : nest_run (a ++ b) s = obind (nest_run a s) (nest_run b).
Proof.
  revert s; induction a as [|c a IH]; intros s; cbn; [reflexivity|].
  destruct (nest_step s c); cbn; [apply IH|reflexivity|reflexivity].
Qed.
Lemma nest_run_cons c t s : nest_run (c :: t) s = obind (nest_step s c) (nest_run t).
Proof. reflexivity. Qed.

(** ** A text is read with the groups marked whenever it is read at all. *)
Definition like_frame (f g : frame) : Prop := fr_kind f = fr_kind g /\ List.length (fr_items f) = List.length (fr_items g).
Definition rep_first (l : list re) : Prop := match l with RRep _ _ _ _ :: _ => True | _ => False end.
Record like (s t : state) : Prop := mkLike {
  like_mode : st_mode s = st_mode t;
  like_items : List.length (st_items s) = List.length (st_items t);
  like_rep : st_mode s = MRep -> rep_first (st_items s) /\ rep_first (st_items t);
  like_stack : Forall2 like_frame (st_stack s) (st_stack t) }.
Definition like_out (o p : outcome state) : Prop :=
  match o, p with Done s, Done t => like s t | Invalid, Invalid | Unsupported, Unsupported => True | _, _ => False end.

Lemma like_set m s t : like s t -> m <> MRep -> like_out (Done (set_mode m s)) (Done (set_mode m t)).
Proof. intros [H1 H2 H3 H4] Hm. split; [reflexivity|assumption|intros E; now destruct Hm|assumption]. Qed.
Lemma like_push r r' s t : like s t -> like_out (Done (push_item r s)) (Done (push_item r' t)).
Proof. intros [H1 H2 H3 H4]. split; [reflexivity|cbn; now f_equal|discriminate|assumption]. Qed.
Lemma like_frame_push k s t : like s t -> like (push_frame k s) (push_frame k t).
Proof. intros [H1 H2 H3 H4]. split; [reflexivity|reflexivity|discriminate|]. constructor; [split; [reflexivity|exact H2]|assumption]. Qed.
Lemma like_pop s t : like s t -> like_out (pop_frame s) (pop_frame t).
Proof.
  intros [H1 H2 H3 H4]. unfold pop_frame. destruct H4 as [|f g k k' [Hk Hi] Hs]; [exact Logic.I|].
  split; [reflexivity|cbn; now f_equal|discriminate|exact Hs].
Qed.
Lemma like_alt s t : like s t -> like_out (Done (push_alt s)) (Done (push_alt t)).
Proof. intros [H1 H2 H3 H4]. split; [reflexivity|reflexivity|discriminate|assumption]. Qed.
Lemma like_repeat a b s t : like s t -> like_out (repeat_last a b s) (repeat_last a b t).
Proof.
  intros [H1 H2 H3 H4]. unfold repeat_last. destruct (st_items s), (st_items t); try discriminate; [exact Logic.I|].
  split; [reflexivity|cbn in *; congruence|now cbn|assumption].
Qed.
Lemma like_lazy s t : like s t -> st_mode s = MRep -> like_out (make_lazy s) (make_lazy t).
Proof.
  intros [H1 H2 H3 H4] Hm. unfold make_lazy. destruct (H3 Hm) as [Ha Hb].
  destruct (st_items s) as [|[] ls]; try contradiction Ha. destruct (st_items t) as [|[] lt]; try contradiction Hb.
  split; [reflexivity|cbn in *; congruence|discriminate|assumption].
Qed.
Lemma like_normal s t c : like s t -> like_out (step_normal s c) (step_normal t c).
Proof.
  intros H. unfold step_normal.
  destruct (c =? c_ "("); [now apply like_set|]. destruct (c =? c_ ")"); [now apply like_pop|].
  destruct (c =? c_ "|"); [now apply like_alt|]. destruct (c =? c_ "["); [now apply like_set|].
  destruct (c =? c_ "?"); [now apply like_repeat|]. destruct (c =? c_ "*"); [now apply like_repeat|].
  destruct (c =? c_ "+"); [now apply like_repeat|].
  destruct (c =? c_ "{").
  { pose proof (like_items _ _ H). destruct (st_items s), (st_items t); try discriminate; [exact Logic.I|]. now apply like_set. }
  destruct (c =? c_ "\"); [now apply like_set|]. destruct (c =? c_ "."); [now apply like_push|].
  destruct (c =? c_ "^"); [now apply like_push|]. destruct (c =? c_ "$"); now apply like_push.
Qed.
Lemma like_name s t n c : like s t -> like_out (step_name s n c) (step_name t n c).
Proof.
  intros H. unfold step_name. destruct (c =? c_ ">"); [destruct n; [exact Logic.I|now apply like_frame_push]|].
  destruct (128 <=? c); [exact Logic.I|].
  destruct ((c =? c_ "_") || is_letter c); [now apply like_set|]. destruct n; [exact Logic.I|].
  destruct (is_digit_char c || contains (s_ ".[]") c); [now apply like_set|exact Logic.I].
Qed.
Lemma like_class n l s t c : like s t -> like_out (step_class n l s c) (step_class n l t c).
Proof.
  intros H. unfold step_class. destruct (c =? c_ "]"); [now apply like_push|]. destruct (contains (s_ "[&~") c); [exact Logic.I|].
  destruct (c =? c_ "-"); [now apply like_set|]. destruct (c =? c_ "\"); now apply like_set.
Qed.
Lemma like_range n l s t a b : like s t -> like_out (add_range n l s a b) (add_range n l t a b).
Proof. intros H. unfold add_range. destruct (b <? a); [exact Logic.I|now apply like_set]. Qed.
Lemma like_lit n l a s t c : like s t -> like_out (class_lit n l a s c) (class_lit n l a t c).
Proof. intros H. unfold class_lit. destruct a; [now apply like_range|now apply like_set]. Qed.
Lemma like_count s t n c : like s t -> like_out (step_count s n c) (step_count t n c).
Proof.
  intros H. unfold step_count. destruct (is_digit_char c); [now apply like_set|]. destruct (contains (s_ "} ,") c).
  - destruct n as [n|]; [|destruct (c =? c_ "}"); exact Logic.I]. destruct (u32_max <? n); [exact Logic.I|].
    destruct (c =? c_ "}"); [now apply like_repeat|]. destruct (c =? c_ ","); [now apply like_set|exact Logic.I].
  - destruct (contains [9; 10; 11; 12; 13] c || (128 <=? c)); exact Logic.I.
Qed.
Lemma like_step s t c : like s t -> like_out (step s c) (step t c).
Proof.
  intros H. unfold step. rewrite <- (like_mode _ _ H). destruct (st_mode s) eqn:E;
    repeat match goal with
    | |- like_out (step_normal _ _) (step_normal _ _) => apply like_normal
    | |- like_out (step_name _ _ _) (step_name _ _ _) => apply like_name
    | |- like_out (step_count _ _ _) (step_count _ _ _) => apply like_count
    | |- like_out (step_class _ _ _ _) (step_class _ _ _ _) => apply like_class
    | |- like_out (add_range _ _ _ _ _) (add_range _ _ _ _ _) => apply like_range
    | |- like_out (class_lit _ _ _ _ _) (class_lit _ _ _ _ _) => apply like_lit
    | |- like_out (repeat_last _ _ _) (repeat_last _ _ _) => apply like_repeat
    | |- like_out (make_lazy _) (make_lazy _) => apply like_lazy; assumption
    | |- like_out (close_class _ _ _) (close_class _ _ _) => apply like_push
    | |- like_out (Done (push_item _ _)) (Done (push_item _ _)) => apply like_push
    | |- like_out (Done (set_mode MWord (push_item _ _))) _ => apply like_set; [apply (like_push (RLook LWord) (RLook LWord))|discriminate]
    | |- like_out (Done (set_mode _ _)) (Done (set_mode _ _)) => apply like_set; [|discriminate]
    | |- like_out (Done (push_frame _ _)) (Done (push_frame _ _)) => apply like_frame_push
    | |- like (push_frame _ _) (push_frame _ _) => apply like_frame_push
    | |- like_out Invalid Invalid => exact Logic.I
    | |- like_out Unsupported Unsupported => exact Logic.I
    | |- like (set_mode MNormal _) (set_mode MNormal _) => apply (like_set MNormal); [|discriminate]
    | |- like_out (obind ?o _) (obind ?o _) => destruct o as [[]| |]; cbn [obind]
    | |- like_out (if ?b then _ else _) _ => destruct b
    | |- like_out (match ?x with _ => _ end) _ => destruct x
    end; assumption.
Qed.
Lemma like_mark s t c t' s' : like s t -> step t c = Done t' -> like s' t' -> like s' (mark t c t').
Proof.
  intros H Et H'. unfold mark. destruct (st_mode t) eqn:E; try exact H'.
  - destruct (st_items t') as [|r l] eqn:Ei; [exact H'|]. destruct (st_stack t) as [|[[] fi fa] k]; try exact H'.
    destruct (N.eqb_spec c (c_ ")")) as [->|]; [|exact H'].
    unfold step in Et. rewrite E in Et. cbn in Et. unfold pop_frame in Et. destruct (st_stack t); [discriminate|].
    injection Et as Et. subst t'. destruct H' as [H1 H2 H3 H4]. split; [assumption|cbn in *; congruence| |assumption].
    rewrite H1. discriminate.
  - destruct (st_items t') as [|r l] eqn:Ei; [exact H'|]. destruct (st_stack t) as [|[[] fi fa] k]; try exact H'.
    destruct (N.eqb_spec c (c_ ")")) as [->|]; [|exact H'].
    unfold step in Et. rewrite E in Et. cbn in Et. unfold pop_frame in Et. cbn in Et. destruct (st_stack t); [discriminate|].
    injection Et as Et. subst t'. destruct H' as [H1 H2 H3 H4]. split; [assumption|cbn in *; congruence| |assumption].
    rewrite H1. discriminate.
  - destruct (st_items t') as [|[] l] eqn:Ei; try exact H'.
    assert (st_mode t' <> MRep).
    { unfold step in Et. rewrite E in Et. destruct (escape_meaning c) as [[| |[]|]| |]; cbn in Et; try discriminate; injection Et as <-; discriminate. }
    destruct (st_mode t') eqn:Em; try exact H';
      (destruct H' as [H1 H2 H3 H4]; rewrite Em in H1; split; [assumption|cbn in *; rewrite Ei in H2; exact H2| |assumption];
       rewrite H1; intros Hx; now destruct H0).
  - destruct (st_items t') as [|r l] eqn:Ei; [exact H'|]. destruct (st_stack t) as [|[[] fi fa] k]; try exact H'.
    destruct (N.eqb_spec c (c_ ")")) as [->|]; [|exact H'].
    unfold step in Et. rewrite E in Et. cbn in Et. unfold pop_frame in Et. cbn in Et. destruct (st_stack t); [discriminate|].
    injection Et as Et. subst t'. destruct H' as [H1 H2 H3 H4]. split; [assumption|cbn in *; congruence| |assumption].
    rewrite H1. discriminate.
Qed.
Lemma like_run t : forall s n, like s n -> like_out (run t s) (nest_run t n).
Proof.
  induction t as [|c t IH]; intros s n H; [exact H|]. cbn [run nest_run]. unfold nest_step.
  pose proof (like_step s n c H) as Hs. destruct (step s c) as [s'| |], (step n c) as [n'| |] eqn:En; try easy.
  cbn [obind]. apply IH. eapply like_mark; eauto.
Qed.
Lemma nest_defined t r : parse_syntax t = Done r -> exists n, nest_run t init = Done n /\ finish n = Done (body (st_items n) (st_alts n)) /\
  ready (st_mode n) /\ st_stack n = [].
Proof.
  unfold parse_syntax. intros H.
  assert (L : like init init) by (split; [reflexivity|reflexivity|discriminate|constructor]).
  apply (like_run t) in L. destruct (run t init) as [s| |]; try discriminate H.
  destruct (nest_run t init) as [n| |]; try easy. exists n. split; [reflexivity|].
  cbn [obind] in H. unfold finish in *. destruct L as [H1 H2 H3 H4]. rewrite H1 in H.
  destruct (st_mode n); try discriminate H; destruct (st_stack s); try discriminate H; inversion H4; auto using ready.
Qed.
Lemma nest_some t r : parse_syntax t = Done r -> exists d, nest t = Some d.
Proof. intros H. destruct (nest_defined _ _ H) as (n & E & F & _). unfold nest. rewrite E. cbn [obind]. rewrite F. eauto. Qed.
