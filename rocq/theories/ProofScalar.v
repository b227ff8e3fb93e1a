(** Everything printed is made of Rust chars. *)
From Coq Require Import PeanoNat.
From Verif Require Export SpecScalar ProofParams2 ProofMatch Compiled.

Lemma ascii_scalar c : ascii_char c -> scalar c.
Proof. unfold ascii_char, scalar. change char_max with 1114111. lia. Qed.
Ltac letters := repeat (apply Forall_cons || apply Forall_nil); vm_compute; intuition discriminate.

(** ** Reading a regex *)
Definition item_rust (i : class_item) : Prop := match i with CRange a b => scalar a /\ scalar b | CPerl _ _ => True end.
Fixpoint re_rust (r : re) : Prop :=
  match r with
  | REmpty | RDot | RLook _ => True
  | RLit c => scalar c
  | RClass k => Forall item_rust (cl_items k)
  | RRep _ _ _ r => re_rust r
  | RCap n r => match n with Some n => rust_string n | None => True end /\ re_rust r
  | RCat a b | RAlt a b => re_rust a /\ re_rust b
  end.
Definition mode_rust (m : mode) : Prop :=
  match m with
  | MName n => rust_string n
  | MClass1 _ l | MClassIn _ l | MClassDash _ l | MClassPerl _ l | MClassPerlDash _ l | MClassEsc _ l None | MClassHex _ l None _ => Forall item_rust l
  | MClassLit _ l a | MClassRange _ l a | MClassEsc _ l (Some a) | MClassHex _ l (Some a) _ => scalar a /\ Forall item_rust l
  | _ => True
  end.
Definition frame_rust (f : frame) : Prop :=
  Forall re_rust (fr_items f) /\ Forall re_rust (fr_alts f) /\
  match fr_kind f with KCapture (Some n) => rust_string n | _ => True end.
Definition state_rust (s : state) : Prop :=
  mode_rust (st_mode s) /\ Forall re_rust (st_items s) /\ Forall re_rust (st_alts s) /\ Forall frame_rust (st_stack s).
Lemma rust_cat l : Forall re_rust l -> re_rust (mk_cat l).
Proof. induction 1 as [|x [|y l] Hx Hl IH]; [exact I|exact Hx|]. now split. Qed.
Lemma rust_alt l : Forall re_rust l -> re_rust (mk_alt l).
Proof. induction 1 as [|x [|y l] Hx Hl IH]; [exact I|exact Hx|]. now split. Qed.
Lemma rust_body i a : Forall re_rust i -> Forall re_rust a -> re_rust (body i a).
Proof. intros Hi Ha. apply rust_alt, Forall_rev. constructor; [|exact Ha]. now apply rust_cat, Forall_rev. Qed.
Lemma rust_mode m s : mode_rust m -> state_rust s -> state_rust (set_mode m s).
Proof. intros Hm (_ & H). split; [exact Hm|exact H]. Qed.
Lemma rust_push r s : re_rust r -> state_rust s -> state_rust (push_item r s).
Proof. intros Hr (_ & H1 & H2). split; [exact I|]. split; [now constructor|exact H2]. Qed.
Lemma rust_frame k s : match k with KCapture (Some n) => rust_string n | _ => True end -> state_rust s -> state_rust (push_frame k s).
Proof. intros Hk (_ & H1 & H2 & H3). split; [exact I|]. split; [constructor|]. split; [constructor|]. constructor; [|exact H3]. now repeat split. Qed.
Lemma rust_pop s s' : state_rust s -> pop_frame s = Done s' -> state_rust s'.
Proof.
  intros (_ & H1 & H2 & H3). unfold pop_frame. destruct s as [m i a [|f st]]; cbn in *; [discriminate|].
  intros H. injection H as <-. inversion_clear H3 as [|? ? (Hi & Ha & Hk) Hs]. split; [exact I|].
  split; [|split; assumption]. constructor; [|exact Hi]. pose proof (rust_body i a H1 H2).
  destruct (fr_kind f) as [[n|]|]; [now split|now split|assumption].
Qed.
Lemma rust_repeat min max s s' : state_rust s -> repeat_last min max s = Done s' -> state_rust s'.
Proof.
  intros (_ & H1 & H2 & H3). unfold repeat_last. destruct s as [m [|r l] a st]; cbn in *; [discriminate|].
  intros H. injection H as <-. inversion_clear H1. split; [exact I|]. split; [|split; assumption]. now constructor.
Qed.
Lemma rust_lazy s s' : state_rust s -> make_lazy s = Done s' -> state_rust s'.
Proof.
  intros (_ & H1 & H2 & H3). unfold make_lazy. destruct s as [m [|[] l] a st]; cbn in *; try discriminate.
  intros H. injection H as <-. inversion_clear H1. split; [exact I|]. split; [|split; assumption]. now constructor.
Qed.
Ltac got := let H := fresh in intros H; first [discriminate H | injection H as <-].
Lemma rust_normal s c s' : scalar c -> state_rust s -> step_normal s c = Done s' -> state_rust s'.
Proof.
  intros Hc Hs. unfold step_normal.
  destruct (c =? c_ "("); [got; now apply rust_mode|]. destruct (c =? c_ ")"); [now apply rust_pop|].
  destruct (c =? c_ "|").
  { got. destruct Hs as (_ & H1 & H2 & H3). split; [exact I|]. split; [constructor|]. split; [|exact H3].
    constructor; [now apply rust_cat, Forall_rev|exact H2]. }
  destruct (c =? c_ "["); [got; now apply rust_mode|].
  destruct (c =? c_ "?"); [now apply rust_repeat|].
  destruct (c =? c_ "*"); [now apply rust_repeat|].
  destruct (c =? c_ "+"); [now apply rust_repeat|].
  destruct (c =? c_ "{"); [destruct (st_items s); got; now apply rust_mode|].
  destruct (c =? c_ "\"); [got; now apply rust_mode|]. destruct (c =? c_ "."); [got; now apply rust_push|].
  destruct (c =? c_ "^"); [got; now apply rust_push|]. destruct (c =? c_ "$"); got; now apply rust_push.
Qed.
Lemma rust_name s n c s' : scalar c -> rust_string n -> state_rust s -> step_name s n c = Done s' -> state_rust s'.
Proof.
  intros Hc Hn Hs. unfold step_name. destruct (c =? c_ ">").
  - destruct n as [|x n]; [discriminate|]. got. apply rust_frame; [|exact Hs]. now apply (Forall_rev (l := x :: n)).
  - destruct (128 <=? c); [discriminate|]. destruct (_ || _); [got; apply rust_mode; [now constructor|exact Hs]|].
    destruct n; [discriminate|]. destruct (_ || _); got. apply rust_mode; [now constructor|exact Hs].
Qed.
Lemma rust_class neg l s c s' : scalar c -> Forall item_rust l -> state_rust s -> step_class neg l s c = Done s' -> state_rust s'.
Proof.
  intros Hc Hl Hs. unfold step_class. destruct (c =? c_ "]").
  { got. apply rust_push; [|exact Hs]. now apply Forall_rev. }
  destruct (contains (s_ "[&~") c); [got|]. destruct (c =? c_ "-"); [got; now apply rust_mode|].
  destruct (c =? c_ "\"); got; now apply rust_mode.
Qed.
Lemma rust_range neg l s a b s' : scalar a -> scalar b -> Forall item_rust l -> state_rust s -> add_range neg l s a b = Done s' -> state_rust s'.
Proof. intros Ha Hb Hl Hs. unfold add_range. destruct (b <? a); got. apply rust_mode; [|exact Hs]. constructor; [now split|exact Hl]. Qed.
Lemma rust_lit neg l a s c s' : scalar c -> mode_rust (MClassEsc neg l a) -> state_rust s -> class_lit neg l a s c = Done s' -> state_rust s'.
Proof.
  intros Hc Hm Hs. unfold class_lit. destruct a as [a|]; cbn in Hm; [destruct Hm; now apply rust_range|]. got. apply rust_mode; [now split|exact Hs].
Qed.
Lemma rust_hex h c d : step_hex h c = Done (inr d) -> scalar d.
Proof.
  assert (H : forall v, hex_char v = Done (inr d) -> scalar d).
  { intros v. unfold hex_char. destruct (v <=? 1114111) eqn:E1; [|discriminate]. cbn [andb].
    destruct ((55296 <=? v) && (v <=? 57343)) eqn:E2; [discriminate|]. intros H. injection H as <-. unfold scalar. change char_max with 1114111.
    apply N.leb_le in E1. apply andb_false_iff in E2. rewrite !N.leb_gt in E2. lia. }
  unfold step_hex. destruct h as [n|n v|v].
  - destruct (c =? c_ "{"); [discriminate|]. destruct (hex_value c); discriminate.
  - destruct (hex_value c); [|discriminate]. destruct (Nat.leb _ _); [apply H|discriminate].
  - destruct (c =? c_ "}"); [destruct v; [apply H|discriminate]|]. destruct (hex_value c); discriminate.
Qed.
Lemma rust_count s n c s' : state_rust s -> step_count s n c = Done s' -> state_rust s'.
Proof.
  intros Hs. unfold step_count. destruct (is_digit_char c); [got; now apply rust_mode|]. destruct (contains (s_ "} ,") c).
  - destruct n as [n|]; [|destruct (c =? c_ "}"); got]. destruct (u32_max <? n); [got|].
    destruct (c =? c_ "}"); [now apply rust_repeat|]. destruct (c =? c_ ","); got. now apply rust_mode.
  - destruct (contains [9; 10; 11; 12; 13] c || (128 <=? c)); got.
Qed.
Lemma rust_escape c d : scalar c -> escape_meaning c = Done (EscLit d) -> scalar d.
Proof.
  intros Hc. unfold escape_meaning.
  repeat match goal with |- context [if ?b then _ else _] => destruct b end; intros H; try discriminate H; injection H as <-; try exact Hc; apply ascii_scalar; vm_compute; reflexivity.
Qed.
Lemma rust_dash : item_rust (CRange (c_ "-") (c_ "-")).
Proof. split; apply ascii_scalar; vm_compute; reflexivity. Qed.
Lemma rust_step s c s' : scalar c -> state_rust s -> step s c = Done s' -> state_rust s'.
Proof.
  intros Hc Hs. pose proof (proj1 Hs) as Hm. assert (H1 : item_rust (CRange c c)) by now split. pose proof rust_dash as Hd.
  unfold step. destruct (st_mode s) eqn:E; cbn [mode_rust] in Hm.
  - now apply rust_normal.
  - destruct (c =? c_ "?"); [now apply rust_lazy|]. apply rust_normal; [exact Hc|]. now apply rust_mode.
  - destruct (escape_meaning c) as [[d|n p|l|n]| |] eqn:Ee; cbn [obind]; [| |destruct l|got; now apply rust_mode| |]; got; try apply (rust_mode MWord); try exact I; (apply rust_push; [|exact Hs]); cbn; auto.
    exact (rust_escape c _ Hc Ee).
  - destruct (c =? c_ "?"); [got; now apply rust_mode|]. apply rust_normal; [exact Hc|]. now apply rust_frame.
  - destruct (c =? c_ ":"); [got; now apply rust_frame|]. destruct (c =? c_ "P"); [got; now apply rust_mode|].
    destruct (c =? c_ "<"); [got; now apply rust_mode|]. destruct (contains (s_ "=!") c); got.
  - destruct (c =? c_ "<"); got. apply rust_mode; [constructor|exact Hs].
  - destruct (contains (s_ "=!") c); [got|]. apply rust_name; [exact Hc|constructor|exact Hs].
  - now apply rust_name.
  - now apply rust_count.
  - destruct (is_digit_char c); [got; now apply rust_mode|]. destruct (c =? c_ "}").
    + destruct m as [m|]; [|now apply rust_repeat]. destruct (_ || _); [got|now apply rust_repeat].
    + destruct ((c =? c_ " ") || contains [9; 10; 11; 12; 13] c || (128 <=? c)); got.
  - destruct (c =? c_ "^"); [got; apply rust_mode; [constructor|exact Hs]|].
    destruct (c =? c_ "-"); [got; apply rust_mode; [cbn; auto|exact Hs]|].
    destruct (c =? c_ "]"); [got; apply rust_mode; [cbn; auto|exact Hs]|]. apply rust_class; [exact Hc|constructor|exact Hs].
  - destruct (c =? c_ "-"); [got; apply rust_mode; [cbn; auto|exact Hs]|].
    destruct l; [destruct (c =? c_ "]"); [got; apply rust_mode; [cbn; auto|exact Hs]|]|]; now apply rust_class.
  - now apply rust_class.
  - destruct (c =? c_ "-"); [got|]. apply rust_class; try assumption. now constructor.
  - destruct Hm as [Ha Hm]. destruct (c =? c_ "-"); [got; now apply rust_mode|]. destruct (_ && _ && _ && _); [got; now apply rust_mode|].
    apply rust_class; try assumption. constructor; [now split|exact Hm].
  - destruct Hm as [Ha Hm]. destruct (c =? c_ "]").
    { got. apply rust_push; [|exact Hs]. apply (Forall_rev (l := CRange (c_ "-") (c_ "-") :: CRange a a :: l)). repeat (constructor; try assumption). }
    destruct (c =? c_ "-"); [got|]. destruct (c =? c_ "\"); [got; now apply rust_mode|now apply rust_range].
  - destruct (escape_meaning c) as [[]| |] eqn:Ee; cbn [obind]; try got.
    + apply rust_lit; try assumption. exact (rust_escape c _ Hc Ee).
    + destruct a; got. apply rust_mode; [|exact Hs]. now constructor.
    + apply rust_mode; [exact Hm|exact Hs].
  - destruct (c =? c_ "-"); [got; now apply rust_mode|now apply rust_class].
  - destruct (c =? c_ "]"); [|destruct (c =? c_ "-"); got]. got. apply rust_push; [|exact Hs].
    apply (Forall_rev (l := CRange (c_ "-") (c_ "-") :: l)). now constructor.
  - destruct (c =? c_ "&"); got. now apply rust_mode.
  - destruct (c =? c_ "b"); got. now apply rust_mode.
  - destruct (c =? c_ "]"); got. apply rust_push; [|exact Hs]. constructor.
  - destruct (c =? c_ "{"); [got; now apply rust_mode|]. apply rust_normal; [exact Hc|]. now apply rust_mode.
  - destruct (step_hex h c) as [[]| |] eqn:Eh; cbn [obind]; got; [now apply rust_mode|].
    apply rust_push; [|exact Hs]. exact (rust_hex h c _ Eh).
  - destruct (step_hex h c) as [[]| |] eqn:Eh; cbn [obind]; try got; [now apply rust_mode|].
    apply rust_lit; try assumption. exact (rust_hex h c _ Eh).
  - destruct (is_letter c || (c =? c_ "-")); [got|]. now apply rust_count.
Qed.
Lemma rust_parse t r : rust_string t -> parse_syntax t = Done r -> re_rust r.
Proof.
  intros Ht. unfold parse_syntax. destruct (run t init) as [s| |] eqn:E; cbn [obind]; [|discriminate..].
  assert (Hs : state_rust s).
  { assert (H0 : state_rust init) by (repeat split; constructor). revert E. generalize init H0. clear H0.
    induction Ht as [|c t Hc Ht IH]; intros s0 H0; cbn [run]; [intros [= <-]; exact H0|].
    destruct (step s0 c) as [s1| |] eqn:E; cbn [obind]; [|discriminate..]. apply IH. eapply rust_step; eassumption. }
  destruct Hs as (_ & H1 & H2 & _). unfold finish. intros H. assert (body (st_items s) (st_alts s) = r) as <-.
  { destruct (st_mode s); try discriminate H; destruct (st_stack s); try discriminate H; now injection H. }
  now apply rust_body.
Qed.

(** ** Sets of chars *)
Definition rust_ranges (k : ranges) : Prop := Forall (fun x => scalar (fst x) /\ scalar (snd x)) k.
Lemma rust_sort k : rust_ranges k -> rust_ranges (sort_ranges k).
Proof.
  assert (Hi : forall x k, scalar (fst x) /\ scalar (snd x) -> rust_ranges k -> rust_ranges (insert_range x k)).
  { intros x l Hx Hl. induction Hl as [|y l Hy Hl IH]; cbn [insert_range]; [now constructor|]. destruct (_ || _); [constructor; [exact Hx|now constructor]|]. now constructor. }
  induction 1 as [|x k Hx Hk IH]; cbn; [constructor|]. now apply Hi.
Qed.
Lemma rust_join k : forall x, scalar (fst x) /\ scalar (snd x) -> rust_ranges k -> rust_ranges (join_ranges x k).
Proof.
  induction k as [|y k IH]; intros x Hx Hk; cbn [join_ranges]; [now constructor|]. inversion_clear Hk as [|? ? Hy Hk'].
  destruct (_ <=? _); [|constructor; [exact Hx|now apply IH]]. apply IH; [|exact Hk']. split; [apply Hx|]. cbn [snd].
  apply N.max_case; [apply Hx|apply Hy].
Qed.
Lemma rust_canonical k : rust_ranges k -> rust_ranges (canonical k).
Proof. intros H%rust_sort. unfold canonical. destruct (sort_ranges k); [constructor|]. inversion_clear H. now apply rust_join. Qed.
Lemma rust_gaps k : rust_ranges k -> forall low, scalar low \/ char_max < low -> rust_ranges (gaps low k).
Proof.
  unfold scalar. change char_max with 1114111.
  induction 1 as [|[a b] k [Ha Hb] Hk IH]; intros low Hl; cbn [gaps].
  - change char_max with 1114111. destruct (N.leb_spec low 1114111); [|constructor]. constructor; [|constructor]. cbn [fst snd]. unfold scalar. change char_max with 1114111. lia.
  - cbn [fst snd] in *. unfold scalar in *. change char_max with 1114111 in *. apply Forall_app. split.
    + unfold previous_char. destruct (N.ltb_spec low a); cbn [andb]; [|constructor]. destruct (N.eqb_spec a 57344).
      * destruct (_ <=? _); constructor; [|constructor]. cbn [fst snd]. unfold scalar. change char_max with 1114111. lia.
      * destruct (_ <=? _); constructor; [|constructor]. cbn [fst snd]. unfold scalar. change char_max with 1114111. lia.
    + apply IH. unfold next_char. destruct (N.eqb_spec b 55295); destruct (N.max_spec low (if b =? 55295 then 57344 else b + 1)); lia.
Qed.

(** ** [Hir] *)
Fixpoint hir_rust (h : hir) : Prop :=
  match h with
  | HEmpty | HLook _ => True
  | HLit t => rust_string t
  | HClass k => rust_ranges k
  | HRep _ _ _ h => hir_rust h
  | HCap _ n h => match n with Some n => rust_string n | None => True end /\ hir_rust h
  | HCat l | HAlt l => (fix all l := match l with [] => True | h :: l => hir_rust h /\ all l end) l
  end.
Lemma rust_all l : (fix all l := match l with [] => True | h :: l => hir_rust h /\ all l end) l <-> Forall hir_rust l.
Proof. induction l as [|h l IH]; [split; constructor|]. rewrite IH. split; [intros [H1 H2]; now constructor|intros H; now inversion_clear H]. Qed.
Lemma rust_hcat l : hir_rust (HCat l) <-> Forall hir_rust l.
Proof. apply rust_all. Qed.
Lemma rust_halt l : hir_rust (HAlt l) <-> Forall hir_rust l.
Proof. apply rust_all. Qed.
Lemma rust_literal t : rust_string t -> hir_rust (h_literal t).
Proof. now destruct t. Qed.
Lemma rust_h_class k : rust_ranges k -> hir_rust (h_class k).
Proof.
  intros H. unfold h_class. destruct k as [|[a b] [|]]; try exact H. destruct (a =? b); [|exact H]. apply rust_literal. inversion_clear H as [|? ? [H1 H2] _]. now constructor.
Qed.
Lemma rust_repetition a b g h : hir_rust h -> hir_rust (h_repetition a b g h).
Proof. intros H. unfold h_repetition. destruct (if only_empty h then _ else _) as [x y]. repeat (destruct (_ && _); [easy|]). exact H. Qed.
Lemma rust_joined l : Forall hir_rust l -> forall t, rust_string t -> Forall hir_rust (join_literals t l).
Proof.
  assert (Hf : forall t, rust_string t -> Forall hir_rust (flush t)) by (intros [|c t] H; [constructor|now constructor]).
  induction 1 as [|h l Hh Hl IH]; intros t Ht; [now apply Hf|].
  assert (Ho : Forall hir_rust (flush t ++ h :: join_literals [] l)).
  { apply Forall_app. split; [now apply Hf|]. constructor; [exact Hh|]. apply IH. constructor. }
  destruct h; try exact Ho. cbn [join_literals]. apply IH. now apply Forall_app.
Qed.
Lemma rust_concat l : Forall hir_rust l -> hir_rust (h_concat l).
Proof.
  intros H. assert (Hf : Forall hir_rust (flatten_cat l)).
  { unfold flatten_cat. apply Forall_forall. intros x (h & Hh & Hx)%in_flat_map. rewrite Forall_forall in H. specialize (H h Hh).
    destruct h; try (destruct Hx as [<-|[]]; exact H); [easy|]. apply rust_hcat in H. rewrite Forall_forall in H. now apply H. }
  pose proof (rust_joined _ Hf [] (Forall_nil _)) as Hj. clear Hf. rename Hj into Hf. unfold h_concat. destruct (join_literals [] (flatten_cat l)) as [|h [|h' m]]; [exact I|now inversion Hf|now apply rust_hcat].
Qed.
Lemma all_some_each {A B} (f : A -> option B) l : forall m, all_some f l = Some m -> Forall2 (fun x y => f x = Some y) l m.
Proof.
  induction l as [|x l IH]; cbn [all_some]; [intros m [= <-]; constructor|]. intros m. destruct (f x) eqn:E; [|discriminate]. destruct (all_some f l); [|discriminate].
  intros [= <-]. constructor; [exact E|now apply IH].
Qed.
Lemma common_part a : forall b, exists c, a = common a b ++ c.
Proof.
  induction a as [|x a IH]; intros b; [now exists []|]. destruct b as [|y b]; [now exists (x :: a)|]. cbn [common].
  destruct (hir_eqb x y); [|now exists (x :: a)]. destruct (IH b) as [c Hc]. exists c. cbn. now rewrite <- Hc.
Qed.
Lemma commons_part cs : forall c, exists d, c = fold_left common cs c ++ d.
Proof.
  induction cs as [|a cs IH]; intros c; [exists []; now rewrite app_nil_r|]. cbn [fold_left]. destruct (common_part c a) as [x Hx]. destruct (IH (common c a)) as [y Hy].
  exists (y ++ x). rewrite app_assoc, <- Hy. exact Hx.
Qed.
Lemma rust_alternation fuel : forall l, Forall hir_rust l -> hir_rust (h_alternation_ fuel l).
Proof.
  assert (Hk : forall (f : hir -> option ranges) l m, (forall h k, hir_rust h -> f h = Some k -> rust_ranges k) -> Forall hir_rust l -> all_some f l = Some m ->
    hir_rust (h_class (canonical (List.concat m)))).
  { intros f l m Hf Hl Hm. apply rust_h_class, rust_canonical. apply all_some_each in Hm. induction Hm as [|x y l m Hx Hm IH]; [constructor|].
    inversion_clear Hl. apply Forall_app. split; [eapply Hf; eassumption|now apply IH]. }
  assert (Hch : forall h k, hir_rust h -> as_char h = Some k -> rust_ranges k).
  { intros h k H E. destruct h as [|[|c [|d t]]|k0|l|a b g h|i n h|l|l]; try discriminate E. injection E as <-. inversion_clear H. constructor; [now split|constructor]. }
  assert (Hcl : forall h k, hir_rust h -> as_class h = Some k -> rust_ranges k).
  { intros h k H E. destruct h as [|t|k0|l|a b g h|i n h|l|l]; try discriminate E. injection E as <-. exact H. }
  assert (Hco : forall l m, Forall hir_rust l -> all_some as_concat l = Some m -> Forall (Forall hir_rust) m).
  { intros l m Hl Hm. apply all_some_each in Hm. induction Hm as [|x y l m Hx Hm IH]; [constructor|]. inversion_clear Hl as [|? ? H1 H2]. constructor; [|now apply IH].
    destruct x; try discriminate. injection Hx as <-. now apply rust_hcat. }
  assert (Hfl : forall l, Forall hir_rust l -> Forall hir_rust (flatten_alt l)).
  { intros l H. unfold flatten_alt. apply Forall_forall. intros x (h & Hh & Hx)%in_flat_map. rewrite Forall_forall in H. specialize (H h Hh).
    destruct h; try (destruct Hx as [<-|[]]; exact H). apply rust_halt in H. rewrite Forall_forall in H. now apply H. }
  induction fuel as [|fuel IH]; intros l Hl; apply Hfl in Hl; cbn [h_alternation_]; destruct (flatten_alt l) as [|h1 [|h2 m]]; try (constructor; fail); try (now inversion Hl);
    set (l' := h1 :: h2 :: m) in *; (destruct (all_some as_char l') eqn:E1; [now apply (Hk as_char l')|]); (destruct (all_some as_class l') eqn:E2; [now apply (Hk as_class l')|]);
    destruct (all_some as_concat l') as [[|c cs]|] eqn:E3; try (now apply rust_halt).
  apply Hco in E3; [|exact Hl]. destruct (fold_left common cs c) as [|p0 p'] eqn:E4; [now apply rust_halt|]. set (p := p0 :: p') in *.
  destruct (commons_part cs c) as [d Hd]. rewrite E4 in Hd. apply rust_concat. apply Forall_app. split.
  - inversion_clear E3 as [|? ? H1 _]. rewrite Hd in H1. now apply Forall_app in H1.
  - constructor; [|constructor]. apply IH. apply Forall_map. eapply Forall_impl; [|exact E3]. intros x Hx. apply rust_concat.
    apply Forall_forall. intros y Hy. rewrite Forall_forall in Hx. apply Hx. rewrite <- (firstn_skipn (List.length p) x). apply in_or_app. now right.
Qed.
Lemma rust_join_alts l : Forall hir_rust l -> hir_rust (join_alts l).
Proof. intros H. unfold join_alts. destruct l as [|h [|h' l]]; [now apply rust_alternation|now inversion H|now apply rust_alternation]. Qed.

Section Translate.
  Context (digits spaces words : ranges) (Htab : rust_tables digits spaces words).
  Lemma rust_negate k : rust_ranges k -> rust_ranges (negate k).
  Proof. intros H. apply rust_gaps; [exact H|]. left. apply ascii_scalar. reflexivity. Qed.
  Lemma rust_table p : rust_ranges (perl_table digits spaces words p).
  Proof. unfold rust_tables in Htab. rewrite Forall_forall in Htab. apply Htab. destruct p; cbn; auto. Qed.
  Lemma rust_class_ranges k : Forall item_rust (cl_items k) -> rust_ranges (class_ranges digits spaces words k).
  Proof.
    intros H. unfold class_ranges. assert (Hu : rust_ranges (canonical (flat_map (item_ranges digits spaces words) (cl_items k)))).
    { apply rust_canonical. induction H as [|i l Hi Hl IH]; [constructor|]. cbn [flat_map]. apply Forall_app. split; [|exact IH].
      destruct i as [a b|n p]; [constructor; [exact Hi|constructor]|]. cbn [item_ranges]. destruct n; [apply rust_negate, rust_canonical|]; apply rust_table. }
    destruct (cl_negated k); [now apply rust_negate|exact Hu].
  Qed.
  Lemma rust_branches r : re_rust r -> forall i, Forall hir_rust (fst (branches digits spaces words r i)).
  Proof.
    induction r as [|c| |k|l|min max g r IH|n r IH|a IHa b IHb|a IHa b IHb]; intros Hr i; cbn [branches].
    - repeat constructor.
    - constructor; [|constructor]. now constructor.
    - constructor; [|constructor]. letters.
    - constructor; [|constructor]. now apply rust_h_class, rust_class_ranges.
    - repeat constructor.
    - specialize (IH Hr i). destruct (branches _ _ _ r i) as [l j]. constructor; [|constructor]. now apply rust_repetition, rust_join_alts.
    - destruct Hr as [Hn Hr]. specialize (IH Hr (i + 1)). destruct (branches _ _ _ r (i + 1)) as [l j]. constructor; [|constructor]. split; [exact Hn|now apply rust_join_alts].
    - destruct Hr as [Ha Hb]. specialize (IHa Ha i). destruct (branches _ _ _ a i) as [l j]. specialize (IHb Hb j). destruct (branches _ _ _ b j) as [m k].
      constructor; [|constructor]. apply rust_concat. constructor; [now apply rust_join_alts|]. constructor; [now apply rust_join_alts|constructor].
    - destruct Hr as [Ha Hb]. specialize (IHa Ha i). destruct (branches _ _ _ a i) as [l j]. specialize (IHb Hb j). destruct (branches _ _ _ b j) as [m k].
      constructor; [now apply rust_join_alts|exact IHb].
  Qed.
  Lemma rust_translate r : re_rust r -> hir_rust (translate digits spaces words r).
  Proof. intros H. apply rust_join_alts. now apply rust_branches. Qed.
End Translate.
Lemma ascii_string t : Forall ascii_char t -> rust_string t.
Proof. apply Forall_impl. exact ascii_scalar. Qed.
Lemma dec_ascii n : Forall ascii_char (dec n).
Proof. eapply Forall_impl; [|apply dec_digits]. intros c Hc. now apply is_digit_small. Qed.
Lemma group_name_ascii id k : Forall ascii_char (group_name id k).
Proof. unfold group_name. repeat (apply Forall_app; split); try apply dec_ascii; repeat constructor. Qed.
Lemma rust_rename id h : hir_rust h -> forall k, hir_rust (fst (rename_groups_inner id h k)).
Proof.
  assert (Hall : forall l, Forall (fun h => hir_rust h -> forall k, hir_rust (fst (rename_groups_inner id h k))) l ->
    Forall hir_rust l -> forall k, Forall hir_rust (fst (rename_all id l k))).
  { intros l IH. induction IH as [|x l Hx Hl IH]; intros H k; cbn [rename_all]; [constructor|]. inversion_clear H as [|? ? H1 H2].
    specialize (Hx H1 k). destruct (rename_groups_inner id x k) as [y i]. fold (rename_all id). specialize (IH H2 i). destruct (rename_all id l i) as [m j].
    now constructor. }
  induction h as [|t|k'|l|a b g h IH|i n h IH|l IH|l IH] using hir_ind'; intros H k; cbn [rename_groups_inner fst].
  - exact I.
  - now apply rust_literal.
  - now apply rust_h_class.
  - exact I.
  - now apply rust_repetition.
  - destruct H as [_ H]. specialize (IH H (k + 1)). destruct (rename_groups_inner id h (k + 1)) as [h' j]. split; [|exact IH].
    apply ascii_string. exact (group_name_ascii id k).
  - apply rust_hcat in H. specialize (Hall l IH H k). fold (rename_all id). destruct (rename_all id l k) as [m j]. now apply rust_concat.
  - apply rust_halt in H. specialize (Hall l IH H k). fold (rename_all id). destruct (rename_all id l k) as [m j]. now apply rust_alternation.
Qed.
(** ** Printing *)
Lemma rust_app a b : rust_string (a ++ b) <-> rust_string a /\ rust_string b.
Proof. apply Forall_app. Qed.
Lemma rust_show_char c : scalar c -> rust_string (show_char c).
Proof. intros H. unfold show_char. destruct (is_meta c); repeat (constructor; try exact H). all: vm_compute; intuition discriminate. Qed.
Lemma rust_suffix a b g : rust_string (rep_suffix a b g).
Proof.
  apply ascii_string. unfold rep_suffix. pose proof (dec_ascii a) as Ha.
  destruct b as [n|]; [pose proof (dec_ascii n) as Hn|]; destruct g;
    repeat match goal with |- context [if ?x then _ else _] => destruct x end; repeat (apply Forall_app; split); try assumption; repeat constructor.
Qed.
Lemma rust_group t : rust_string t -> rust_string (group_text t).
Proof. intros H. unfold group_text. rewrite !rust_app. split; [apply ascii_string; repeat constructor|]. split; [exact H|apply ascii_string; repeat constructor]. Qed.
Lemma rust_flat {A} (f : A -> str) l : Forall (fun x => rust_string (f x)) l -> rust_string (flat_map f l).
Proof. induction 1; [constructor|]. cbn [flat_map]. now apply rust_app. Qed.
Lemma rust_show wrap h : hir_rust h -> rust_string (show wrap h).
Proof.
  induction h as [|t|k|l|a b g h IH|i n h IH|l IH|l IH] using hir_ind'; intros H; cbn [show].
  - apply ascii_string. repeat constructor.
  - assert (Hu : rust_string (flat_map show_char t)) by (apply rust_flat; eapply Forall_impl; [|exact H]; exact rust_show_char).
    destruct t as [|c [|]]; [now apply rust_group|exact Hu|now apply rust_group].
  - destruct k as [|x k]; [apply ascii_string; repeat constructor|]. rewrite !rust_app. split; [apply ascii_string; repeat constructor|].
    split; [|apply ascii_string; repeat constructor]. apply rust_flat. eapply Forall_impl; [|exact H]. intros [a b] [Ha Hb]. cbn [fst snd] in *. unfold show_range.
    destruct (a =? b); [now apply rust_show_char|]. destruct (a + 1 =? b); rewrite !rust_app; repeat split; try (now apply rust_show_char). apply ascii_string. repeat constructor.
  - apply ascii_string. destruct l; repeat constructor.
  - apply rust_app. split; [|apply rust_suffix]. specialize (IH H). destruct h; try exact IH. destruct wrap; [now apply rust_group|exact IH].
  - destruct H as [Hn H]. rewrite !rust_app. split; [apply ascii_string; repeat constructor|]. split; [|split; [now apply IH|apply ascii_string; repeat constructor]].
    destruct n as [n|]; [|constructor]. rewrite !rust_app. repeat split; [apply ascii_string; repeat constructor|exact Hn|apply ascii_string; repeat constructor].
  - apply rust_hcat in H. apply rust_group. rewrite <- flat_map_concat_map. apply rust_flat. apply Forall_forall. intros x Hx. rewrite Forall_forall in IH, H. auto.
  - apply rust_halt in H. apply rust_group. assert (Ht : Forall rust_string (map (show wrap) l)).
    { apply Forall_map. apply Forall_forall. intros x Hx. rewrite Forall_forall in IH, H. auto. }
    induction Ht as [|t m Ht Hm IHm]; [constructor|]. destruct m as [|t' m]; [exact Ht|]. cbn [join_with]. rewrite !rust_app. split; [exact Ht|].
    split; [apply ascii_string; repeat constructor|exact IHm].
Qed.

(** ** The text of an expression *)
Section Text.
  Context (P : char -> Prop) (Hascii : forall c, ascii_char c -> P c).
  Ltac lettered := apply (Forall_impl P Hascii); repeat (constructor; [reflexivity|]); constructor.
  Lemma text_escape t : Forall P t -> Forall P (escape_for_regex t).
  Proof.
    intros Ht. rewrite escape_for_regex_eq. assert (Hu : Forall P (unescape t)).
    { revert Ht. generalize (Nat.le_refl (List.length t)). generalize (List.length t) at 2 as n. intros n. revert t.
      induction n as [|n IH]; intros t Hn Ht; (destruct t as [|c t]; [constructor|]); cbn [List.length] in Hn; [lia|]. cbn [unescape]. inversion_clear Ht as [|? ? Hc Ht'].
      destruct (N.eq_dec c _).
      - destruct t as [|d t]; [constructor|]. inversion_clear Ht'. constructor; [assumption|]. apply IH; [cbn in Hn; lia|assumption].
      - constructor; [exact Hc|]. apply IH; [lia|exact Ht']. }
    induction Hu as [|c u Hc Hu IH]; [constructor|]. cbn [flat_map]. apply Forall_app. split; [|exact IH]. unfold quote.
    destruct (in_dec _ _ _); repeat (constructor; try exact Hc). apply Hascii. reflexivity.
  Qed.
  Context {I : Type} (text : I -> str).
  Lemma text_optional o : Forall P (text (opt_input o)) -> Forall P (optional_text text o).
  Proof. intros H. unfold optional_text. repeat (apply Forall_app; split); [lettered|now apply text_escape|lettered]. Qed.
  Lemma text_removelast (l : str) : Forall P l -> Forall P (removelast l).
  Proof. induction 1 as [|x [|y l] Hx Hl IH]; [constructor|constructor|]. now constructor. Qed.
  Lemma text_source tf e : Forall P (source (map_expression text e)) -> (forall p, In p (parameters e) -> Forall P (tf p)) -> Forall P (text_by text tf e).
  Proof.
    intros Hs Ht. unfold text_by. apply Forall_app. split; [lettered|]. apply Forall_app. split; [|lettered].
    unfold source, map_expression in Hs. induction e as [|x e IH]; [constructor|]. cbn [flat_map map List.concat] in *. apply Forall_app in Hs as [Hx Hs].
    apply Forall_app. split; [|apply IH; [exact Hs|intros p Hp; apply Ht; destruct x; cbn; auto]].
    destruct x as [a|o|p|t|t]; cbn [single_text map_single src_single] in *.
    - unfold alternation_text. repeat (apply Forall_app; split); [lettered| |lettered]. apply text_removelast.
      assert (Hb : Forall (fun b => Forall P (src_branch (map (map_alternative text) b))) a).
      { unfold map_alternation in Hx. rewrite map_map in Hx. clear - Hx. induction a as [|b a IH]; [constructor|]. cbn [map] in Hx. destruct a as [|b' a].
        - now constructor.
        - cbn [map join] in *. apply Forall_app in Hx as [Hx Hy]. constructor; [exact Hx|]. apply IH. now apply Forall_app in Hy. }
      clear Hx Ht IH Hs. induction Hb as [|b a Hb Ha IHa]; [constructor|]. cbn [flat_map]. rewrite <- app_assoc. apply Forall_app. split.
      + unfold branch_text. clear - Hb Hascii. unfold src_branch in Hb. induction b as [|y b IH]; [constructor|]. cbn [map List.concat flat_map] in *.
        apply Forall_app in Hb as [Hy Hb]. apply Forall_app. split; [|now apply IH]. destruct y as [o|u]; cbn in Hy |- *; [|now apply text_escape].
        apply text_optional. inversion_clear Hy as [|? ? _ Hy']. now apply Forall_app in Hy'.
      + constructor; [now apply Hascii|]. apply IHa.
    - apply text_optional. inversion_clear Hx as [|? ? _ Hy']. now apply Forall_app in Hy'.
    - apply Ht. now left.
    - now apply text_escape.
    - now apply text_escape.
  Qed.
End Text.
Lemma string_regex_ascii id : Forall ascii_char (string_regex id).
Proof. pose proof (dec_ascii id) as H. unfold string_regex. repeat (apply Forall_app; split); try exact H; repeat (constructor; [reflexivity|]); constructor. Qed.
Lemma builtin_ascii {I} (text : I -> str) p : Forall ascii_char (builtin_text text p).
Proof.
  unfold builtin_text. repeat (destruct (str_eqb _ _); [try apply string_regex_ascii; repeat (constructor; [reflexivity|]); constructor|]).
  repeat (constructor; [reflexivity|]); constructor.
Qed.
Lemma regex_chars s t r : addressable s -> expression_regex s = XOk t r -> Forall (fun c => In c s \/ ascii_char c) t.
Proof.
  intros Hs Hr. destruct (regex_parsed s t r Hs Hr) as (e & He & _ & -> & _). apply text_source; [auto| |].
  - destruct (parsed_wf s e Hs He) as [_ ->]. apply Forall_forall. auto.
  - intros p _. eapply Forall_impl; [|apply builtin_ascii]. auto.
Qed.
Lemma custom_chars digits spaces words wrap get s e t r : rust_tables digits spaces words -> addressable s -> rust_string s -> expression_parse s = RetOk e ->
  (forall p v, In p (parameters e) -> get (par_input p) = Some v -> rust_string v) ->
  regex_with_parameters digits spaces words (show wrap) get s = XOk t r -> rust_string t.
Proof.
  intros Htab Ha Hs He Hg Hr.
  assert (Ht : t = text_by frag (custom_text frag digits spaces words (show wrap) get) e).
  { destruct (checked_or_first frag get e) as [Hc|(e1 & p & e2 & er & -> & H1 & H2)].
    - rewrite (whole_checked _ _ _ _ _ s e He Hc) in Hr. destruct (regex_new _); congruence.
    - rewrite (whole_fault _ _ _ _ _ s e1 p e2 er He H1 H2) in Hr. destruct er; discriminate. }
  rewrite Ht. apply text_source; [exact ascii_scalar| |].
  - now destruct (parsed_wf s e Ha He) as [_ ->].
  - intros p Hp. unfold custom_text. specialize (Hg p). destruct (get (par_input p)) as [v|]; [|apply ascii_string, builtin_ascii].
    specialize (Hg v Hp eq_refl). assert (Hv : rust_string (s_ "(" ++ v ++ s_ ")")).
    { rewrite !rust_app. split; [apply ascii_string; repeat constructor|]. split; [exact Hg|apply ascii_string; repeat constructor]. }
    unfold matcher_text. destruct (regex_new v) as [r0| |] eqn:Er; try exact Hv. destruct (_ && _); [|exact Hv].
    apply (rust_group (printed digits spaces words (show wrap) r0 (par_id p))). apply rust_show, rust_rename. apply rust_translate; [exact Htab|].
    eapply rust_parse; [exact Hg|]. now apply regex_new_inv in Er.
Qed.

(** ** What is captured *)
Lemma piece_in a b s o : piece_of s o -> piece_of (a ++ s ++ b) o.
Proof. destruct o as [t|]; [|trivial]. intros (x & y & ->). exists (a ++ x), (y ++ b). now rewrite !app_assoc. Qed.
Section Captured.
  Context (digit space word : char -> bool).
  Notation rm := (Regex.rm digit space word).
  Notation rms := (Regex.rms digit space word).
  Lemma none_pieces r s : Forall (piece_of s) (no_captures r).
  Proof. unfold no_captures. apply Forall_map. apply Forall_forall. intros; exact I. Qed.
  Lemma merged_pieces s c : Forall (piece_of s) c -> forall d, Forall (piece_of s) d -> Forall (piece_of s) (merge c d).
  Proof. induction 1 as [|x c Hx Hc IH]; intros d Hd; [constructor|]. destruct Hd as [|y d Hy Hd]; [constructor|]. cbn [merge]. constructor; [now destruct y|now apply IH]. Qed.
  Lemma pieces_in a b s c : Forall (piece_of s) c -> Forall (piece_of (a ++ s ++ b)) c.
  Proof. apply Forall_impl. intros o. apply piece_in. Qed.
  Lemma rm_pieces :
    (forall r p m q c, rm r p m q c -> Forall (piece_of m) c) /\ (forall k r p m q c, rms k r p m q c -> Forall (piece_of m) c).
  Proof.
    apply rm_rms_ind; intros; try solve [constructor]; try assumption.
    - constructor; [|assumption]. exists [], []. now rewrite app_nil_r.
    - apply Forall_app. split; [now apply (pieces_in [] y)|]. rewrite <- (app_nil_r y). now apply (pieces_in x []).
    - apply Forall_app. split; [assumption|apply none_pieces].
    - apply Forall_app. split; [apply none_pieces|assumption].
    - apply none_pieces.
    - apply merged_pieces; [now apply (pieces_in [] y)|]. rewrite <- (app_nil_r y). now apply (pieces_in x []).
  Qed.
  Lemma captures_pieces r s c : captures digit space word r s = Some c -> Forall (piece_of s) c.
  Proof.
    unfold captures. destruct (search _ _ _ r [] s) as [[p w]|] eqn:E; [|discriminate]. intros H. injection H as <-.
    apply search_some in E as (q & _ & -> & Hr & _). constructor; [now exists q, (w_rest w)|].
    apply pieces_in. exact (proj1 rm_pieces _ _ _ _ _ Hr).
  Qed.
End Captured.
Lemma piece_rust s o t : rust_string s -> piece_of s o -> o = Some t -> rust_string t.
Proof. intros Hs H ->. destruct H as (a & b & ->). apply rust_app in Hs as [_ Hs]. now apply rust_app in Hs as [Hs _]. Qed.
Lemma hir_pieces digits spaces words r s c : hir_captures digits spaces words r s = Some c ->
  Forall (piece_of s) c /\ (rust_string s -> forall t, In (Some t) c -> rust_string t).
Proof.
  intros H. apply captures_pieces in H. split; [exact H|]. intros Hs t Ht. rewrite Forall_forall in H.
  exact (piece_rust s (Some t) t Hs (H _ Ht) eq_refl).
Qed.
