(** What the parser of Regex.v reads, the grammar of SpecSyntax.v derives. *)
From Coq Require Import PeanoNat.
From Verif Require Export ProofSyntax.

(** ** Classes *)
Notation dash := (CRange (c_ "-") (c_ "-")).
Inductive place := PLead | POpen | PChar | PDash | PLast.
(** The text inside a class read so far, the items it stands for (in reverse), and what may follow. *)
Inductive ins : str -> list class_item -> place -> Prop :=
| ins_lead k : ins (repeat (c_ "-") k) (repeat dash k) PLead
| ins_bracket : ins (s_ "]") [CRange (c_ "]") (c_ "]")] POpen
| ins_char w l k u a : ins w l k -> k <> PLast -> class_char (s_ "[]&~-\") u a -> ins (w ++ u) (CRange a a :: l) PChar
| ins_range w l k u a e b : ins w l k -> k <> PLast -> class_char (s_ "[]&~-\") u a -> class_char (s_ "]-\") e b -> a <= b ->
    ins (w ++ u ++ s_ "-" ++ e) (CRange a b :: l) POpen
| ins_dash w l : ins w l POpen -> ins (w ++ s_ "-") (dash :: l) PDash
| ins_last w l : ins w l PChar -> ins (w ++ s_ "-") (dash :: l) PLast
| ins_perl w l k c i : ins w l k -> k <> PLast -> perl_class c i -> ins (w ++ [c_ "\"; c]) (i :: l) PChar.
Definition may_follow (k : place) (w u : str) : Prop :=
  match k with
  | PLead => ~ starts (c_ "-") u /\ (w = [] -> u <> [])
  | POpen => True
  | PChar => no_range u
  | PDash => ~ starts (c_ "-") u
  | PLast => u = []
  end.
Lemma class_char_start x t a u : In (c_ "-") x -> class_char x t a -> ~ starts (c_ "-") (t ++ u).
Proof. intros Hx [c Hc|e d Hc] [v Hv]; [injection Hv as -> _; auto|discriminate Hv]. Qed.
Lemma may_follow_item k w t u : k <> PLast -> t <> [] -> ~ starts (c_ "-") (t ++ u) -> may_follow k w (t ++ u).
Proof.
  intros Hk Ht Hs. destruct k; cbn; auto; try easy.
  - split; [exact Hs|]. intros _ H. apply app_eq_nil in H as [H _]. now destruct Ht.
Qed.
Lemma repeat_snoc {A} (x : A) n : repeat x n ++ [x] = repeat x (S n).
Proof. induction n as [|n IH]; [reflexivity|]. cbn [repeat app]. now rewrite IH. Qed.
Lemma ins_inside w l k : ins w l k -> forall u l2, class_items u l2 -> may_follow k w u -> class_inside (w ++ u) (rev l ++ l2).
Proof.
  assert (Hm : In (c_ "-") (s_ "[]&~-\")) by (cbn; tauto).
  induction 1 as [k| |w l k u a Hw IH Hk Hu|w l k u a e b Hw IH Hk Hu He Hab|w l Hw IH|w l Hw IH|w l k c i Hw IH Hk Hc];
    intros v l2 Hv Hf; cbn [may_follow] in Hf.
  - rewrite rev_repeat. destruct Hf as [H1 H2]. constructor; [exact Hv|exact H1|]. intros ->. now apply H2.
  - now apply cn_bracket.
  - rewrite <- app_assoc. cbn [rev]. rewrite <- app_assoc. cbn [app]. apply IH; [now apply ci_char|].
    apply may_follow_item; [exact Hk|now apply (class_char_nonempty _ _ _ Hu)|now apply (class_char_start _ _ _ _ Hm Hu)].
  - rewrite <- !app_assoc. cbn [rev]. rewrite <- app_assoc. cbn [app].
    apply IH; [now apply ci_range|].
    apply may_follow_item; [exact Hk|now apply (class_char_nonempty _ _ _ Hu)|now apply (class_char_start _ _ _ _ Hm Hu)].
  - rewrite <- app_assoc. cbn [rev]. rewrite <- app_assoc. cbn [app]. apply IH; [now apply (ci_dash v l2)|exact I].
  - rewrite <- app_assoc. cbn [rev]. rewrite <- app_assoc. cbn [app]. subst v. apply class_items_nil in Hv as ->.
    apply IH; [|now intros _]. apply (ci_dash [] []); [now intros [? ?]|constructor].
  - rewrite <- app_assoc. cbn [rev]. rewrite <- app_assoc. cbn [app]. apply IH; [now apply ci_perl|].
    apply (may_follow_item k w [c_ "\"; c]); [exact Hk|easy|]. intros [x Hx]. discriminate Hx.
Qed.
Definition class_open (n : bool) : str := if n then s_ "[^" else s_ "[".
(** A class read up to its closing bracket. *)
Definition in_class (n : bool) (w : str) (l : list class_item) (k : place) : Prop :=
  ins w l k /\ (n = false -> ~ starts (c_ "^") w).
Lemma in_class_text n w l k : in_class n w l k -> (k = PLead -> w <> []) ->
  class_text (class_open n ++ w ++ s_ "]") (mkClass n (rev l)).
Proof.
  intros [H Hn] Hk.
  assert (Hi : class_inside w (rev l)).
  { rewrite <- (app_nil_r w), <- (app_nil_r (rev l)). apply (ins_inside _ _ _ H); [constructor|].
    destruct k; cbn; auto.
    - split; [now intros [? ?]|]. intros ->. now destruct (Hk eq_refl).
    - intros [? ?]. discriminate.
    - now intros [? ?]. }
  destruct n; [now apply ct_negated|]. apply ct_class; auto.
Qed.

(** ** Levels *)
(** The text [t] of a level stands for the items and the finished alternatives, both in reverse. *)
Inductive level_text : str -> list re -> list re -> bool -> Prop :=
| lt_nil : level_text [] [] [] false
| lt_item t items alts o u r o' : level_text t items alts o -> repeated u r o' -> level_text (t ++ u) (r :: items) alts o'
| lt_bar t items alts o : level_text t items alts o -> level_text (t ++ s_ "|") [] (mk_cat (rev items) :: alts) false.
(** Sequences and alternatives with lists. *)
Inductive seq_list : str -> list re -> Prop :=
| sl_nil : seq_list [] []
| sl_cons t r o u l : repeated t r o -> seq_list u l -> seq_list (t ++ u) (r :: l).
Inductive alt_list : str -> list re -> Prop :=
| all_one t l : seq_list t l -> alt_list t [mk_cat l]
| all_more t l u rs : seq_list t l -> alt_list u rs -> alt_list (t ++ s_ "|" ++ u) (mk_cat l :: rs).
Lemma repeated_nonempty t r o : repeated t r o -> t <> [].
Proof. intros H. apply syntax_read in H as [[H _] _]. exact H. Qed.
Lemma seq_list_sequence t l : seq_list t l -> sequence t (mk_cat l) /\ (l <> [] -> t <> []).
Proof.
  induction 1 as [|t r o u l Ht Hu [IH1 IH2]]; [split; [constructor|easy]|]. split.
  - destruct l as [|r' l].
    + inversion Hu; subst. rewrite app_nil_r. now apply (sq_one t r o).
    + change (mk_cat (r :: r' :: l)) with (RCat r (mk_cat (r' :: l))). apply (sq_more t r o); [exact Ht|exact IH1|]. now apply IH2.
  - intros _ H. apply app_eq_nil in H as [H _]. now apply (repeated_nonempty _ _ _ Ht).
Qed.
Lemma alt_list_alternatives t rs : alt_list t rs -> alternatives t (mk_alt rs) /\ rs <> [].
Proof.
  induction 1 as [t l Ht|t l u rs Ht Hu [IH IHn]]; (split; [|easy]).
  - apply al_one. now apply seq_list_sequence.
  - destruct rs as [|r rs]; [easy|]. change (mk_alt (mk_cat l :: r :: rs)) with (RAlt (mk_cat l) (mk_alt (r :: rs))).
    apply al_more; [now apply seq_list_sequence|exact IH].
Qed.
Definition more_alts (v : str) (rs : list re) : Prop := v = [] /\ rs = [] \/ exists v', v = s_ "|" ++ v' /\ alt_list v' rs.
Lemma level_alts t items alts o : level_text t items alts o -> forall u l v rs, seq_list u l -> more_alts v rs ->
  alt_list (t ++ u ++ v) (rev alts ++ mk_cat (rev items ++ l) :: rs).
Proof.
  induction 1 as [|t items alts o u r o' Ht IH Hu|t items alts o Ht IH]; intros u' l v rs Hl Hv.
  - cbn [app rev]. destruct Hv as [[-> ->]|(v' & -> & Hv)]; [rewrite app_nil_r; now constructor|now constructor].
  - rewrite <- app_assoc. cbn [rev]. rewrite <- app_assoc. cbn [app]. rewrite (app_assoc u u' v).
    apply IH; [now apply (sl_cons u r o')|exact Hv].
  - rewrite <- app_assoc. cbn [rev app]. rewrite <- app_assoc. cbn [app].
    specialize (IH [] [] (s_ "|" ++ u' ++ v) (mk_cat l :: rs)). rewrite app_nil_r in IH. apply IH; [constructor|].
    right. eexists. split; [reflexivity|]. destruct Hv as [[-> ->]|(v' & -> & Hv)]; [rewrite app_nil_r; now constructor|now constructor].
Qed.
Lemma level_alternatives t items alts o : level_text t items alts o -> alternatives t (body items alts).
Proof.
  intros H. unfold body. cbn [rev]. pose proof (level_alts _ _ _ _ H [] [] [] [] sl_nil (or_introl (conj eq_refl eq_refl))) as Ha.
  rewrite !app_nil_r in Ha. now apply alt_list_alternatives in Ha.
Qed.

(** ** States *)
Definition kind_opens (q : str) (k : kind) : Prop :=
  opens q (match k with KCapture n => Some n | KGroup => None end).
Inductive frames : str -> list frame -> Prop :=
| fr_nil : frames [] []
| fr_cons T t items alts o q k fs : frames T fs -> level_text t items alts o -> kind_opens q k ->
    frames (T ++ t ++ q) (mkFrame k items alts :: fs).
Definition decimal_opt (t : str) (v : option N) : Prop := match v with None => t = [] | Some n => decimal t n end.
(** Some of an escape, after its backslash. *)
Definition part_hex (q : str) (h : hex) : Prop :=
  exists c n w, q = c :: w /\ escape_meaning c = Done (EscHex n) /\ hexes w (HFirst n) = Done (inl h).
Lemma part_hex_first c n : escape_meaning c = Done (EscHex n) -> part_hex [c] (HFirst n).
Proof. intros H. exists c, n, []. auto. Qed.
Lemma part_hex_more q h c h' : part_hex q h -> step_hex h c = Done (inl h') -> part_hex (q ++ [c]) h'.
Proof. intros (d & n & w & -> & H1 & H2) H. exists d, n, (w ++ [c]). split; [reflexivity|]. split; [exact H1|]. now rewrite hexes_app, H2, hexes_one. Qed.
Lemma part_hex_last q h c d : part_hex q h -> step_hex h c = Done (inr d) -> char_escape (q ++ [c]) d.
Proof.
  intros (e & n & w & -> & H1 & H2) H. apply char_escape_iff. exists e. right. exists (w ++ [c]), n.
  split; [reflexivity|]. split; [exact H1|]. now rewrite hexes_app, H2, hexes_one.
Qed.
Definition class_a (w : str) : Prop := class_char (s_ "[]&~-\") w (c_ "a").
(** The text of an item that is not finished. *)
Definition pending (m : mode) (p : str) : Prop :=
  match m with
  | MNormal | MRep | MWord => False
  | MEsc => p = s_ "\"
  | MOpen => p = s_ "("
  | MOpenQ => p = s_ "(?"
  | MOpenP => p = s_ "(?P"
  | MOpenLt => p = s_ "(?<"
  | MName n => (p = s_ "(?P<" ++ rev n /\ (n = [] \/ group_name (rev n))) \/ (p = s_ "(?<" ++ rev n /\ group_name (rev n))
  | MCount v => exists t, p = s_ "{" ++ t /\ decimal_opt t v
  | MCountTo n v => exists t u, p = s_ "{" ++ t ++ s_ "," ++ u /\ decimal t n /\ n < 2 ^ 32 /\ decimal_opt u v
  | MClass0 => p = s_ "["
  | MClass1 n l => exists k, p = class_open n ++ repeat (c_ "-") k /\ l = repeat dash k /\ (n = false -> k <> 0%nat)
  | MClassIn n l => exists w, p = class_open n ++ w /\ in_class n w l POpen
  | MClassDash n l => exists w, p = class_open n ++ w ++ s_ "-" /\ in_class n w l POpen
  | MClassLit n l a => exists w, p = class_open n ++ w /\ in_class n w (CRange a a :: l) PChar
  | MClassRange n l a => exists w, p = class_open n ++ w ++ s_ "-" /\ in_class n w (CRange a a :: l) PChar
  | MClassEsc n l None => exists w k, p = class_open n ++ w ++ s_ "\" /\ in_class n w l k /\ k <> PLast
  | MClassEsc n l (Some a) => exists w, p = class_open n ++ w ++ s_ "-\" /\ in_class n w (CRange a a :: l) PChar
  | MClassPerl n l => exists w, p = class_open n ++ w /\ in_class n w l PChar
  | MClassPerlDash n l => exists w, p = class_open n ++ w ++ s_ "-" /\ in_class n w l PChar
  | MFail1 => exists w, p = s_ "[" ++ w ++ s_ "&" /\ class_a w
  | MFail2 => exists w, p = s_ "[" ++ w ++ s_ "&&" /\ class_a w
  | MFail3 => exists w, p = s_ "[" ++ w ++ s_ "&&b" /\ class_a w
  | MHex h => exists q, p = s_ "\" ++ q /\ part_hex q h
  | MClassHex n l None h => exists w k q, p = class_open n ++ w ++ s_ "\" ++ q /\ in_class n w l k /\ k <> PLast /\ part_hex q h
  | MClassHex n l (Some a) h => exists w q, p = class_open n ++ w ++ s_ "-\" ++ q /\ in_class n w (CRange a a :: l) PChar /\ part_hex q h
  | MWordCount => p = s_ "{"
  end.
Definition counting (m : mode) : Prop := match m with MCount _ | MCountTo _ _ | MWordCount => True | _ => False end.
Inductive has_read : str -> state -> Prop :=
| hr_ready T t m items alts stack o : frames T stack -> level_text t items alts o -> m = (if o then MRep else MNormal) \/ m = MWord /\ o = false /\ items <> [] ->
    has_read (T ++ t) (mkState m items alts stack)
| hr_pending T t m items alts stack o p : frames T stack -> level_text t items alts o -> pending m p ->
    (counting m -> items <> []) -> has_read (T ++ t ++ p) (mkState m items alts stack).

Lemma has_read_nil : has_read [] init.
Proof. apply (hr_ready [] [] MNormal [] [] [] false); [constructor..|now left]. Qed.

(** ** Steps *)
Lemma read_atom T t items alts stack o u r : frames T stack -> level_text t items alts o -> atom u r ->
  has_read (T ++ t ++ u) (mkState MNormal (r :: items) alts stack).
Proof.
  intros HT Ht Hu. apply (hr_ready T (t ++ u) MNormal _ _ _ false); [exact HT| |now left].
  apply (lt_item t items alts o); [exact Ht|now constructor].
Qed.
Lemma level_operator t r items alts o op min max : level_text t (r :: items) alts o -> operator op min max ->
  (o = true -> op <> s_ "?") -> level_text (t ++ op) (RRep min max true r :: items) alts true.
Proof.
  intros Ht Hop Hq. inversion Ht as [|t0 i0 a0 o0 u r0 o' H0 Hu|]; subst. rewrite <- app_assoc.
  apply (lt_item t0 items alts o0); [exact H0|]. now apply (rp_greedy u r o).
Qed.
Lemma level_lazy t x items alts : level_text t (x :: items) alts true ->
  exists min max r, x = RRep min max true r /\ level_text (t ++ s_ "?") (RRep min max false r :: items) alts false.
Proof.
  intros Ht. inversion Ht as [|t0 i0 a0 o0 u r0 o' H0 Hu|]; subst.
  inversion Hu as [|t1 r o1 op min max H1 Hop Hq|]; subst. exists min, max, r. split; [reflexivity|].
  rewrite <- app_assoc. apply (lt_item t0 items alts o0); [exact H0|]. rewrite <- app_assoc. now apply (rp_lazy t1 r o1).
Qed.
Lemma read_repeat T t m items alts stack o op min max s' : frames T stack -> level_text t items alts o -> operator op min max ->
  (o = true -> op <> s_ "?") -> repeat_last min max (mkState m items alts stack) = Done s' -> has_read (T ++ t ++ op) s'.
Proof.
  intros HT Ht Hop Hq. unfold repeat_last. cbn [st_items st_alts st_stack]. destruct items as [|r items]; [discriminate|].
  injection 1 as <-. apply (hr_ready T (t ++ op) MRep _ _ _ true); [exact HT| |now left]. now apply (level_operator t r items alts o).
Qed.
Lemma read_pending T t items alts stack o m p : frames T stack -> level_text t items alts o -> pending m p ->
  (counting m -> items <> []) -> forall m0, has_read (T ++ t ++ p) (set_mode m (mkState m0 items alts stack)).
Proof. intros HT Ht Hp Hc m0. now apply (hr_pending T t m items alts stack o p). Qed.
Lemma read_open T t m items alts stack o q k : frames T stack -> level_text t items alts o -> kind_opens q k ->
  has_read (T ++ t ++ q) (push_frame k (mkState m items alts stack)).
Proof.
  intros HT Ht Hq. rewrite <- (app_nil_r (T ++ t ++ q)).
  apply (hr_ready (T ++ t ++ q) [] MNormal [] [] _ false); [now apply (fr_cons T t items alts o)|constructor|now left].
Qed.
Lemma read_close T t m items alts stack o s' : frames T stack -> level_text t items alts o ->
  pop_frame (mkState m items alts stack) = Done s' -> has_read (T ++ t ++ s_ ")") s'.
Proof.
  intros HT Ht. unfold pop_frame. cbn [st_items st_alts st_stack].
  destruct HT as [|T t0 i0 a0 o0 q k fs HT Ht0 Hq]; [discriminate|]. injection 1 as <-. cbn [fr_kind fr_items fr_alts].
  rewrite <- !app_assoc. apply (read_atom T t0 i0 a0 fs o0 (q ++ t ++ s_ ")")); [exact HT|exact Ht0|].
  pose proof (at_group q _ t _ Hq (level_alternatives _ _ _ _ Ht)) as Ha. destruct k; exact Ha.
Qed.
Lemma read_normal T t m items alts stack o c s' : frames T stack -> level_text t items alts o -> (o = true -> c <> c_ "?") ->
  step_normal (mkState m items alts stack) c = Done s' -> has_read (T ++ t ++ [c]) s'.
Proof.
  intros HT Ht Ho. unfold step_normal.
  destruct (N.eqb_spec c (c_ "(")) as [->|E1]; [injection 1 as <-; now apply (read_pending T t items alts stack o MOpen)|].
  destruct (N.eqb_spec c (c_ ")")) as [->|E2]; [now apply (read_close T t m items alts stack o)|].
  destruct (N.eqb_spec c (c_ "|")) as [->|E3].
  { injection 1 as <-. apply (hr_ready T (t ++ s_ "|") MNormal [] _ _ false); [exact HT|now apply (lt_bar t items alts o)|now left]. }
  destruct (N.eqb_spec c (c_ "[")) as [->|E4]; [injection 1 as <-; now apply (read_pending T t items alts stack o MClass0)|].
  destruct (N.eqb_spec c (c_ "?")) as [->|E5].
  { apply (read_repeat T t m items alts stack o (s_ "?")); [exact HT|exact Ht|constructor|]. intros H. now destruct (Ho H). }
  destruct (N.eqb_spec c (c_ "*")) as [->|E6].
  { apply (read_repeat T t m items alts stack o (s_ "*")); [exact HT|exact Ht|constructor|easy]. }
  destruct (N.eqb_spec c (c_ "+")) as [->|E7].
  { apply (read_repeat T t m items alts stack o (s_ "+")); [exact HT|exact Ht|constructor|easy]. }
  destruct (N.eqb_spec c (c_ "{")) as [->|E8].
  { cbn [st_items]. destruct items as [|r items]; [discriminate|]. injection 1 as <-.
    apply (read_pending T t (r :: items) alts stack o (MCount None)); [exact HT|exact Ht| |easy]. exists []. split; reflexivity. }
  destruct (N.eqb_spec c (c_ "\")) as [->|E9]; [injection 1 as <-; now apply (read_pending T t items alts stack o MEsc)|].
  destruct (N.eqb_spec c (c_ ".")) as [->|E10]; [injection 1 as <-; apply (read_atom T t items alts stack o); [exact HT|exact Ht|constructor]|].
  destruct (N.eqb_spec c (c_ "^")) as [->|E11]; [injection 1 as <-; apply (read_atom T t items alts stack o); [exact HT|exact Ht|constructor]|].
  destruct (N.eqb_spec c (c_ "$")) as [->|E12]; [injection 1 as <-; apply (read_atom T t items alts stack o); [exact HT|exact Ht|constructor]|].
  injection 1 as <-. apply (read_atom T t items alts stack o); [exact HT|exact Ht|]. constructor.
  intros H. cbn [In s_] in H. cbn in H. repeat destruct H as [H|H]; try (symmetry in H; contradiction); exact H.
Qed.
(** A name. *)
Lemma in_letters c : (c =? c_ "_") || is_letter c = true -> In c (lower ++ upper ++ s_ "_").
Proof.
  rewrite app_assoc. intros H. apply orb_prop in H as [H|H]; apply in_or_app.
  - apply N.eqb_eq in H. right. now left.
  - left. now apply letter_iff.
Qed.
Lemma read_name n c s s' : (n = [] \/ group_name (rev n)) -> c <> c_ ">" -> step_name s n c = Done s' ->
  group_name (rev (c :: n)) /\ s' = set_mode (MName (c :: n)) s.
Proof.
  intros Hn Hc. unfold step_name. destruct (N.eqb_spec c (c_ ">")) as [->|_]; [easy|].
  destruct (128 <=? c); [discriminate|]. destruct ((c =? c_ "_") || is_letter c) eqn:E.
  - injection 1 as <-. split; [|reflexivity]. apply in_letters in E. cbn [rev].
    destruct Hn as [->|Hn]; [now constructor|]. destruct Hn as [d m Hd Hm]. cbn [app]. constructor; [exact Hd|].
    apply Forall_app. split; [exact Hm|]. constructor; [|constructor].
    rewrite !in_app_iff in *. cbn in E |- *. intuition.
  - destruct n as [|x n]; [discriminate|]. destruct (is_digit_char c || contains (s_ ".[]") c) eqn:E'; [|discriminate].
    injection 1 as <-. split; [|reflexivity]. destruct Hn as [Hn|Hn]; [discriminate|].
    cbn [rev] in *. destruct Hn as [d m Hd Hm]. cbn [app]. constructor; [exact Hd|].
    apply Forall_app. split; [exact Hm|]. constructor; [|constructor]. rewrite !in_app_iff.
    apply orb_prop in E' as [E'|E'].
    + apply digit_iff in E'. auto.
    + apply contains_In in E'. cbn in E' |- *. intuition.
Qed.
(** A class. *)
Lemma caret_app n w u : (n = false -> ~ starts (c_ "^") w) -> u <> [] -> (n = false -> w = [] -> ~ starts (c_ "^") u) ->
  n = false -> ~ starts (c_ "^") (w ++ u).
Proof.
  intros Hw Hu H Hn. destruct w as [|d w]; [now apply H|]. intros [v Hv]. injection Hv as -> _. apply (Hw Hn). now exists w.
Qed.
Lemma ins_nonempty w l k : ins w l k -> k <> PLead -> w <> [].
Proof.
  intros Hi Hk He.
  destruct Hi as [n| |w' l' k' u a H1 H2 Hu|w' l' k' u a e b H1 H2 Hu|w' l' H1|w' l' H1|w' l' k' c i H1 H2 H3]; try easy;
    apply app_eq_nil in He as [_ He]; try discriminate He.
  - now apply (class_char_nonempty _ _ _ Hu).
  - apply app_eq_nil in He as [He _]. now apply (class_char_nonempty _ _ _ Hu).
Qed.
Section Class.
  Context (T t : str) (items alts : list re) (stack : list frame) (o : bool) (m0 : mode).
  Context (HT : frames T stack) (Ht : level_text t items alts o).
  Let s := mkState m0 items alts stack.
  Lemma read_close_class n w l k : in_class n w l k -> (k = PLead -> w <> []) -> forall p, p = class_open n ++ w ++ s_ "]" ->
    forall s', close_class n l s = Done s' -> has_read (T ++ t ++ p) s'.
  Proof.
    intros H Hk p -> s'. unfold close_class. injection 1 as <-. apply (read_atom T t items alts stack o); [exact HT|exact Ht|].
    constructor. now apply (in_class_text n w l k).
  Qed.
  Lemma class_char_caret n (w : str) x u a : class_char x u a -> (n = false -> w = [] -> u <> [c_ "^"]) -> n = false -> w = [] -> ~ starts (c_ "^") u.
  Proof. intros [c Hc|e d Hc] H Hn Hw [v Hv]; [|discriminate Hv]. injection Hv as -> <-. now apply (H Hn Hw). Qed.
  Lemma read_class n w l k c : in_class n w l k -> (k = PLead -> w = [] -> c <> c_ "]") ->
    k <> PLast -> (c = c_ "-" -> k = POpen) -> (n = false -> w = [] -> c <> c_ "^") ->
    forall s', step_class n l s c = Done s' -> has_read (T ++ t ++ (class_open n ++ w) ++ [c]) s'.
  Proof.
    intros [Hw Hn] Hb Hk Hd Hc s'. rewrite <- app_assoc. unfold step_class.
    destruct (N.eqb_spec c (c_ "]")) as [->|E1].
    { apply (read_close_class n w l k); [now split| |reflexivity]. intros H1 H2. now apply (Hb H1 H2). }
    destruct (contains (s_ "[&~") c) eqn:E2; [discriminate|].
    destruct (N.eqb_spec c (c_ "-")) as [->|E3].
    { injection 1 as <-. rewrite (Hd eq_refl) in *. apply (read_pending T t items alts stack o (MClassDash n l)); [exact HT|exact Ht| |easy].
      exists w. split; [reflexivity|]. now split. }
    destruct (N.eqb_spec c (c_ "\")) as [->|E4].
    { injection 1 as <-. apply (read_pending T t items alts stack o (MClassEsc n l None)); [exact HT|exact Ht| |easy].
      exists w, k. split; [reflexivity|]. split; [now split|exact Hk]. }
    injection 1 as <-. apply (read_pending T t items alts stack o (MClassLit n l c)); [exact HT|exact Ht| |easy].
    exists (w ++ [c]). split; [reflexivity|].
    assert (Hcc : class_char (s_ "[]&~-\") [c] c).
    { constructor. apply contains_false in E2. intros H. cbn in H, E2. intuition. }
    split; [now apply (ins_char w l k)|]. apply caret_app; [exact Hn|easy|].
    apply (class_char_caret n w _ _ _ Hcc). intros Hf He E. injection E as ->. now apply (Hc Hf He).
  Qed.
  (** The end of a range. *)
  Lemma read_range n w l a e b p : in_class n w (CRange a a :: l) PChar -> class_char (s_ "]-\") e b -> p = class_open n ++ w ++ s_ "-" ++ e ->
    forall s', add_range n l s a b = Done s' -> has_read (T ++ t ++ p) s'.
  Proof.
    intros [Hw Hn] He -> s'. unfold add_range. destruct (N.ltb_spec b a) as [|Hab]; [discriminate|]. injection 1 as <-.
    apply (read_pending T t items alts stack o (MClassIn n (CRange a b :: l))); [exact HT|exact Ht| |easy].
    exists (w ++ s_ "-" ++ e). split; [reflexivity|]. split.
    - inversion Hw as [| |w0 l0 k u a0 Hw0 Hk Hu| | | |w0 l0 k c i Hw0 Hk Hi]; subst; [|now inversion Hi].
      rewrite <- app_assoc. now apply (ins_range w0 l k).
    - apply caret_app; [exact Hn|easy|]. intros _ _ [v Hv]. discriminate Hv.
  Qed.
  Lemma read_class_lit n l a e d p :
    match a with
    | None => exists w k, p = class_open n ++ w ++ s_ "\" ++ e /\ in_class n w l k /\ k <> PLast
    | Some a => exists w, p = class_open n ++ w ++ s_ "-\" ++ e /\ in_class n w (CRange a a :: l) PChar
    end -> char_escape e d -> forall s', class_lit n l a s d = Done s' -> has_read (T ++ t ++ p) s'.
  Proof.
    intros Hp He s'. destruct a as [a|]; cbn [class_lit].
    - destruct Hp as (w & -> & Hw). apply (read_range n w l a (c_ "\" :: e) d); [exact Hw|now constructor|reflexivity].
    - destruct Hp as (w & k & -> & Hw & Hk). injection 1 as <-.
      apply (read_pending T t items alts stack o (MClassLit n l d)); [exact HT|exact Ht| |easy].
      exists (w ++ c_ "\" :: e). split; [reflexivity|]. destruct Hw as [Hw Hn]. split.
      + apply (ins_char w l k); [exact Hw|exact Hk|]. now constructor.
      + apply caret_app; [exact Hn|easy|]. intros _ _ [x Hx]. discriminate Hx.
  Qed.
End Class.
Lemma read_count T u m items alts stack o d v c s' : frames T stack -> level_text u items alts o -> items <> [] -> decimal_opt d v ->
  step_count (mkState m items alts stack) v c = Done s' -> has_read (T ++ u ++ s_ "{" ++ d ++ [c]) s'.
Proof.
  intros HT Hu Hcnt Hd. unfold step_count. destruct (is_digit_char c) eqn:Ec.
  { injection 1 as <-. apply (read_pending T u items alts stack o (MCount (add_digit v c))); [exact HT|exact Hu| |auto].
    exists (d ++ [c]). split; [reflexivity|]. apply digit_iff in Ec. destruct v as [v|].
    - rewrite add_digit_value. now constructor.
    - cbn [decimal_opt] in Hd. subst d. now constructor. }
  destruct (contains (s_ "} ,") c).
  2: { destruct (contains [9; 10; 11; 12; 13] c || (128 <=? c)); discriminate. }
  destruct v as [v|]; [|destruct (c =? c_ "}"); discriminate].
  destruct (u32_max <? v) eqn:Ev; [discriminate|]. apply in_range in Ev. cbn [decimal_opt] in Hd.
  destruct (N.eqb_spec c (c_ "}")) as [->|Hc].
  { apply (read_repeat T u _ items alts stack o (s_ "{" ++ d ++ s_ "}")); [exact HT|exact Hu|now constructor|easy]. }
  destruct (N.eqb_spec c (c_ ",")) as [->|Hc']; [|discriminate]. injection 1 as <-.
  apply (read_pending T u items alts stack o (MCountTo v None)); [exact HT|exact Hu| |auto].
  exists d, []. split; [reflexivity|]. now repeat split.
Qed.
Lemma set_mode_mk m m0 items alts stack : mkState m items alts stack = set_mode m (mkState m0 items alts stack).
Proof. reflexivity. Qed.
Lemma read_step t s c s' : has_read t s -> step s c = Done s' -> has_read (t ++ [c]) s'.
Proof.
  intros [T u m items alts stack o HT Hu Hm|T u m items alts stack o p HT Hu Hp Hcnt].
  - rewrite <- app_assoc. unfold step. cbn [st_mode]. destruct Hm as [Hm|(Hm & -> & Hi)].
    2: { subst m. destruct (N.eqb_spec c (c_ "{")) as [->|Hc].
      - injection 1 as <-. now apply (read_pending T u items alts stack false MWordCount).
      - apply (read_normal T u _ items alts stack false); [exact HT|exact Hu|discriminate]. }
    destruct o; subst m; cbv iota.
    + destruct (N.eqb_spec c (c_ "?")) as [->|Hc].
      * unfold make_lazy. cbn [st_items st_alts st_stack]. destruct items as [|x items]; [discriminate|].
        destruct (level_lazy _ _ _ _ Hu) as (min & max & r & -> & Hl). injection 1 as <-.
        apply (hr_ready T (u ++ s_ "?") MNormal _ _ _ false); [exact HT|exact Hl|now left].
      * apply (read_normal T u _ items alts stack true); [exact HT|exact Hu|auto].
    + apply (read_normal T u _ items alts stack false); [exact HT|exact Hu|discriminate].
  - rewrite <- !app_assoc. unfold step. cbn [st_mode].
    assert (Hpend : forall m' q, q = p ++ [c] -> pending m' q -> (counting m' -> items <> []) ->
      has_read (T ++ u ++ p ++ [c]) (set_mode m' (mkState m items alts stack))).
    { intros m' q -> H1 H2. now apply (read_pending T u items alts stack o m'). }
    assert (Hatom : forall r, atom (p ++ [c]) r -> has_read (T ++ u ++ p ++ [c]) (push_item r (mkState m items alts stack))).
    { intros r Hr. now apply (read_atom T u items alts stack o). }
    destruct m as [| | | | | | |nm|v|n v| |n l|n l|n l|n l a|n l a|n l a|n l|n l| | | | |h|n l a h|]; cbn [pending] in Hp.
    + easy.
    + easy.
    + subst p. destruct (escape_meaning c) as [[d|ng pp|lk|hd]| |] eqn:E; cbn [obind]; try discriminate.
      * injection 1 as <-. apply Hatom, (at_escaped [c]). constructor. now apply escape_lit.
      * injection 1 as <-. apply Hatom, at_perl. now apply escape_perl.
      * apply escape_look in E as [[-> ->]|[[-> ->]|[[-> ->]|[-> ->]]]]; injection 1 as <-; try (apply Hatom; constructor).
        apply (hr_ready T (u ++ s_ "\b") MWord _ _ _ false); [exact HT| |right; now repeat split].
        apply (lt_item u items alts o); [exact Hu|]. repeat constructor.
      * injection 1 as <-. apply (Hpend (MHex (HFirst hd)) (s_ "\" ++ [c])); [reflexivity| |easy].
        exists [c]. split; [reflexivity|now apply part_hex_first].
    + subst p. destruct (N.eqb_spec c (c_ "?")) as [->|Hc]; [injection 1 as <-; now apply (Hpend MOpenQ (s_ "(?"))|].
      intros H. assert (HF : frames (T ++ u ++ s_ "(") (mkFrame (KCapture None) items alts :: stack)).
      { apply (fr_cons T u items alts o); [exact HT|exact Hu|constructor]. }
      pose proof (read_normal _ [] MNormal [] [] _ false c s' HF lt_nil ltac:(discriminate) H) as HR.
      rewrite <- !app_assoc in HR. exact HR.
    + subst p. destruct (N.eqb_spec c (c_ ":")) as [->|H1].
      { injection 1 as <-. apply (read_open T u _ items alts stack o (s_ "(?:") KGroup); [exact HT|exact Hu|constructor]. }
      destruct (N.eqb_spec c (c_ "P")) as [->|H2]; [injection 1 as <-; now apply (Hpend MOpenP (s_ "(?P"))|].
      destruct (N.eqb_spec c (c_ "<")) as [->|H3]; [injection 1 as <-; now apply (Hpend MOpenLt (s_ "(?<"))|].
      destruct (contains (s_ "=!") c); discriminate.
    + subst p. destruct (N.eqb_spec c (c_ "<")) as [->|H3]; [|discriminate]. injection 1 as <-.
      apply (Hpend (MName []) (s_ "(?P<")); [reflexivity| |easy]. left. split; [reflexivity|now left].
    + subst p. destruct (contains (s_ "=!") c); [discriminate|].
      destruct (N.eqb_spec c (c_ ">")) as [->|Hc]; [discriminate|]. intros H.
      apply read_name in H as [Hg ->]; [|now left|exact Hc].
      apply (Hpend (MName [c]) (s_ "(?<" ++ [c])); [reflexivity| |easy]. right. now split.
    + destruct (N.eqb_spec c (c_ ">")) as [->|Hc].
      * unfold step_name. rewrite N.eqb_refl. destruct nm as [|x nm]; [discriminate|]. injection 1 as <-.
        destruct Hp as [[-> Hp]|[-> Hp]]; rewrite <- app_assoc; change [c_ ">"] with (s_ ">").
        -- destruct Hp as [Hp|Hp]; [discriminate|]. apply (read_open T u _ items alts stack o); [exact HT|exact Hu|].
           now apply opens_named.
        -- apply (read_open T u _ items alts stack o); [exact HT|exact Hu|]. now apply opens_named'.
      * intros H. apply read_name in H as [Hg ->]; [|destruct Hp as [[_ Hp]|[_ Hp]]; auto|exact Hc].
        apply (Hpend (MName (c :: nm)) (p ++ [c])); [reflexivity| |easy].
        destruct Hp as [[-> Hp]|[-> Hp]]; [left|right]; (split; [cbn [rev]; now rewrite <- app_assoc|auto]).
    + destruct Hp as (d & -> & Hd). rewrite <- app_assoc. apply (read_count T u _ items alts stack o d v); [exact HT|exact Hu|now apply Hcnt|exact Hd].
    + destruct Hp as (d & e & -> & Hd & Hn & He). specialize (Hcnt I). destruct (is_digit_char c) eqn:Ec.
      { injection 1 as <-. apply (Hpend (MCountTo n (add_digit v c)) ((s_ "{" ++ d ++ s_ "," ++ e) ++ [c])); [reflexivity| |auto].
        exists d, (e ++ [c]). split; [now rewrite <- !app_assoc|]. split; [exact Hd|]. split; [exact Hn|]. apply digit_iff in Ec. destruct v as [v|].
        - rewrite add_digit_value. now constructor.
        - cbn [decimal_opt] in He. subst e. now constructor. }
      destruct (N.eqb_spec c (c_ "}")) as [->|Hc].
      2: { destruct ((c =? c_ " ") || contains [9; 10; 11; 12; 13] c || (128 <=? c)); discriminate. }
      rewrite <- !app_assoc. destruct v as [v|]; cbn [decimal_opt] in He.
      * destruct (u32_max <? v) eqn:Ev; [discriminate|]. destruct (N.ltb_spec v n) as [|Hnv]; [discriminate|]. cbn [orb].
        apply in_range in Ev. apply (read_repeat T u _ items alts stack o (s_ "{" ++ d ++ s_ "," ++ e ++ s_ "}")); [exact HT|exact Hu|now constructor|easy].
      * subst e. apply (read_repeat T u _ items alts stack o (s_ "{" ++ d ++ s_ ",}")); [exact HT|exact Hu|now constructor|easy].
    + subst p. destruct (N.eqb_spec c (c_ "^")) as [->|H1].
      { injection 1 as <-. apply (Hpend (MClass1 true []) (s_ "[^")); [reflexivity| |easy]. exists 0%nat. now repeat split. }
      destruct (N.eqb_spec c (c_ "-")) as [->|H2].
      { injection 1 as <-. apply (Hpend (MClass1 false [dash]) (s_ "[-")); [reflexivity| |easy]. exists 1%nat. now repeat split. }
      destruct (N.eqb_spec c (c_ "]")) as [->|H3].
      { injection 1 as <-. apply (Hpend (MClassIn false [CRange (c_ "]") (c_ "]")]) (s_ "[]")); [reflexivity| |easy].
        exists (s_ "]"). split; [reflexivity|]. split; [constructor|]. intros _ [w Hw]. discriminate Hw. }
      apply (read_class T u items alts stack o _ HT Hu false [] [] PLead).
      * split; [apply (ins_lead 0)|]. intros _ [w Hw]. discriminate Hw.
      * auto.
      * easy.
      * easy.
      * auto.
    + destruct Hp as (k & -> & -> & Hk). 
      destruct (N.eqb_spec c (c_ "-")) as [->|H2].
      { injection 1 as <-. apply (Hpend (MClass1 n (dash :: repeat dash k)) ((class_open n ++ repeat (c_ "-") k) ++ [c_ "-"])); [reflexivity| |easy].
        exists (S k). rewrite <- app_assoc, repeat_snoc. now repeat split. }
      assert (Hins : in_class n (repeat (c_ "-") k) (repeat dash k) PLead).
      { split; [constructor|]. intros _ [w Hw]. destruct k; discriminate Hw. }
      destruct k as [|k].
      * destruct n; [|now destruct Hk]. cbn [repeat] in *. destruct (N.eqb_spec c (c_ "]")) as [->|H3].
        { injection 1 as <-. apply (Hpend (MClassIn true [CRange (c_ "]") (c_ "]")]) (s_ "[^]")); [reflexivity| |easy].
          exists (s_ "]"). split; [reflexivity|]. split; [constructor|discriminate]. }
        apply (read_class T u items alts stack o _ HT Hu true [] [] PLead); try easy; auto.
      * apply (read_class T u items alts stack o _ HT Hu n _ (repeat dash (S k)) PLead); try easy; auto.
    + destruct Hp as (w & -> & Hw). apply (read_class T u items alts stack o _ HT Hu n w l POpen); try easy.
      intros _ ->. destruct Hw as [Hw _]. now destruct (ins_nonempty _ _ _ Hw).
    + destruct Hp as (w & -> & Hw). destruct (N.eqb_spec c (c_ "-")) as [->|Hc]; [discriminate|].
      assert (Hw' : in_class n (w ++ s_ "-") (dash :: l) PDash).
      { destruct Hw as [Hw Hn]. split; [now constructor|]. apply caret_app; [exact Hn|easy|]. intros _ _ [x Hx]. discriminate Hx. }
      apply (read_class T u items alts stack o _ HT Hu n (w ++ s_ "-") (dash :: l) PDash); try easy.
      intros _ H. now destruct w.
    + destruct Hp as (w & -> & Hw). destruct (N.eqb_spec c (c_ "-")) as [->|Hc].
      { injection 1 as <-. apply (Hpend (MClassRange n l a) ((class_open n ++ w) ++ [c_ "-"])); [reflexivity| |easy].
        exists w. split; [now rewrite <- app_assoc|exact Hw]. }
      destruct ((c =? c_ "&") && (a =? c_ "a") && negb n && match l with [] => true | _ => false end) eqn:E.
      { injection 1 as <-. apply andb_prop in E as [E E4]. apply andb_prop in E as [E E3]. apply andb_prop in E as [E1 E2].
        apply N.eqb_eq in E1, E2. subst c a. destruct n; [discriminate|]. destruct l; [|discriminate].
        apply (Hpend MFail1 ((class_open false ++ w) ++ [c_ "&"])); [reflexivity| |easy]. cbn [pending]. destruct Hw as [Hw _].
        exists w. split; [now rewrite <- app_assoc|].
        { inversion Hw as [| |w0 l0 k x a0 Hw0 Hk Hx| | | |w0 l0 k d i Hw0 Hk Hi]; subst; [|now inversion Hi].
          assert (w0 = []).
          { inversion Hw0 as [j Hj1 Hj2| | | | | |]; subst. now destruct j. }
          subst w0. exact Hx. } }
      apply (read_class T u items alts stack o _ HT Hu n w (CRange a a :: l) PChar); try easy.
      intros _ ->. destruct Hw as [Hw _]. now destruct (ins_nonempty _ _ _ Hw).
    + destruct Hp as (w & -> & Hw). destruct (N.eqb_spec c (c_ "]")) as [->|H1].
      { apply (read_close_class T u items alts stack o _ HT Hu n (w ++ s_ "-") _ PLast); [|easy|now rewrite <- !app_assoc].
        destruct Hw as [Hw Hn]. split; [now constructor|]. apply caret_app; [exact Hn|easy|]. intros _ _ [x Hx]. discriminate Hx. }
      destruct (N.eqb_spec c (c_ "-")) as [->|H2]; [discriminate|].
      destruct (N.eqb_spec c (c_ "\")) as [->|H3].
      { injection 1 as <-. apply (Hpend (MClassEsc n l (Some a)) ((class_open n ++ w ++ s_ "-") ++ [c_ "\"])); [reflexivity| |easy].
        exists w. split; [now rewrite <- !app_assoc|exact Hw]. }
      apply (read_range T u items alts stack o _ HT Hu n w l a [c] c); [exact Hw| |now rewrite <- !app_assoc].
      constructor. intros H. cbn in H. intuition.
    + destruct (escape_meaning c) as [[d|ng pp|lk|hd]| |] eqn:E; cbn [obind]; try discriminate.
      * intros H. apply (read_class_lit T u items alts stack o _ HT Hu n l a [c] d (p ++ [c])) in H; [exact H| |constructor; now apply escape_lit].
        destruct a as [a|]; [destruct Hp as (w & -> & Hw); exists w|destruct Hp as (w & k & -> & Hw & Hk); exists w, k]; (split; [now rewrite <- !app_assoc|]); auto.
      * destruct a as [a|]; [discriminate|]. destruct Hp as (w & k & -> & Hw & Hk). injection 1 as <-.
        apply (Hpend (MClassPerl n (CPerl ng pp :: l)) ((class_open n ++ w ++ s_ "\") ++ [c])); [reflexivity| |easy].
        exists (w ++ [c_ "\"; c]). split; [now rewrite <- !app_assoc|]. destruct Hw as [Hw Hn]. split.
        -- apply (ins_perl w l k); [exact Hw|exact Hk|]. now apply escape_perl.
        -- apply caret_app; [exact Hn|easy|]. intros _ _ [x Hx]. discriminate Hx.
      * injection 1 as <-. apply (Hpend (MClassHex n l a (HFirst hd)) (p ++ [c])); [reflexivity| |easy]. cbn [pending].
        apply part_hex_first in E. destruct a as [a|]; [destruct Hp as (w & -> & Hw); exists w, [c]|destruct Hp as (w & k & -> & Hw & Hk); exists w, k, [c]];
          (split; [now rewrite <- !app_assoc|]); auto.
    + destruct Hp as (w & -> & Hw). destruct (N.eqb_spec c (c_ "-")) as [->|Hc].
      { injection 1 as <-. apply (Hpend (MClassPerlDash n l) ((class_open n ++ w) ++ [c_ "-"])); [reflexivity| |easy].
        exists w. split; [now rewrite <- app_assoc|exact Hw]. }
      apply (read_class T u items alts stack o _ HT Hu n w l PChar); try easy.
      intros _ ->. destruct Hw as [Hw _]. now destruct (ins_nonempty _ _ _ Hw).
    + destruct Hp as (w & -> & Hw). destruct (N.eqb_spec c (c_ "]")) as [->|H1].
      { apply (read_close_class T u items alts stack o _ HT Hu n (w ++ s_ "-") _ PLast); [|easy|now rewrite <- !app_assoc].
        destruct Hw as [Hw Hn]. split; [now constructor|]. apply caret_app; [exact Hn|easy|]. intros _ _ [x Hx]. discriminate Hx. }
      destruct (c =? c_ "-"); discriminate.
    + destruct Hp as (w & -> & Hw). destruct (N.eqb_spec c (c_ "&")) as [->|Hc]; [|discriminate]. injection 1 as <-.
      eapply (Hpend MFail2); [reflexivity| |easy]. exists w. split; [now rewrite <- !app_assoc|exact Hw].
    + destruct Hp as (w & -> & Hw). destruct (N.eqb_spec c (c_ "b")) as [->|Hc]; [|discriminate]. injection 1 as <-.
      eapply (Hpend MFail3); [reflexivity| |easy]. exists w. split; [now rewrite <- !app_assoc|exact Hw].
    + destruct Hp as (w & -> & Hw). destruct (N.eqb_spec c (c_ "]")) as [->|Hc]; [|discriminate]. injection 1 as <-. apply Hatom.
      rewrite <- !app_assoc. now apply at_class, ct_empty.
    + easy.
    + destruct Hp as (q & -> & Hq). destruct (step_hex h c) as [[h'|d]| |] eqn:E; cbn [obind]; try discriminate; injection 1 as <-.
      * eapply (Hpend (MHex h')); [reflexivity| |easy]. exists (q ++ [c]). split; [reflexivity|now apply (part_hex_more q h)].
      * apply Hatom. apply (at_escaped (q ++ [c])). now apply (part_hex_last q h).
    + assert (Hp' : exists q, part_hex q h /\ match a with
        | None => exists w k, p = class_open n ++ w ++ s_ "\" ++ q /\ in_class n w l k /\ k <> PLast
        | Some a => exists w, p = class_open n ++ w ++ s_ "-\" ++ q /\ in_class n w (CRange a a :: l) PChar end).
      { destruct a as [a|]; [destruct Hp as (w & q & H1 & H2 & H3)|destruct Hp as (w & k & q & H1 & H2 & H2' & H3)]; exists q; split; eauto. }
      clear Hp. destruct Hp' as (q & Hq & Hp). destruct (step_hex h c) as [[h'|d]| |] eqn:E; cbn [obind]; try discriminate.
      * injection 1 as <-. apply (Hpend (MClassHex n l a h') (p ++ [c])); [reflexivity| |easy]. apply (part_hex_more q h c h' Hq) in E. cbn [pending].
        destruct a as [a|]; [destruct Hp as (w & -> & Hw); exists w, (q ++ [c])|destruct Hp as (w & k & -> & Hw & Hk); exists w, k, (q ++ [c])];
          (split; [now rewrite <- !app_assoc|]); auto.
      * apply (part_hex_last q h c d Hq) in E. intros H. apply (read_class_lit T u items alts stack o _ HT Hu n l a (q ++ [c]) d (p ++ [c])) in H; [exact H| |exact E].
        destruct a as [a|]; [destruct Hp as (w & -> & Hw); exists w|destruct Hp as (w & k & -> & Hw & Hk); exists w, k]; (split; [now rewrite <- !app_assoc|]); auto.
    + subst p. destruct (is_letter c || (c =? c_ "-")); [discriminate|]. apply (read_count T u _ items alts stack o [] None); [exact HT|exact Hu|now apply Hcnt|reflexivity].
Qed.
Lemma read_run u : forall t s s', has_read t s -> run u s = Done s' -> has_read (t ++ u) s'.
Proof.
  induction u as [|c u IH]; intros t s s' Ht; cbn [run].
  - injection 1 as <-. now rewrite app_nil_r.
  - destruct (step s c) as [s1| |] eqn:E; cbn [obind]; [|discriminate..]. intros H.
    apply (IH (t ++ [c])) in H; [now rewrite <- app_assoc in H|]. now apply (read_step t s).
Qed.
Lemma parse_alternatives t r : parse_syntax t = Done r -> alternatives t r.
Proof.
  unfold parse_syntax. destruct (run t init) as [s| |] eqn:E; cbn [obind]; [|discriminate..]. intros H.
  apply (read_run t [] init s has_read_nil) in E. cbn [app] in E. unfold finish in H.
  destruct E as [T u m items alts stack o HT Hu Hm|T u m items alts stack o p HT Hu Hp Hc]; cbn [st_mode st_stack st_items st_alts] in H.
  - destruct stack; [|destruct Hm as [->|(-> & _)]; [destruct o|]; discriminate]. inversion HT. cbn [app].
    assert (body items alts = r) as <- by (destruct Hm as [->|(-> & _)]; [destruct o|]; now injection H).
    now apply (level_alternatives u items alts o).
  - destruct m; try discriminate H; easy.
Qed.
Lemma parse_iff t r : parse_syntax t = Done r <-> alternatives t r.
Proof. split; [apply parse_alternatives|apply alternatives_parse]. Qed.
Lemma regex_new_iff t r : regex_new t = Done r <-> regex_text t r.
Proof.
  unfold regex_text. rewrite <- parse_iff. split; [apply regex_new_inv|].
  intros [H Hn]. unfold regex_new. rewrite H. cbn [obind]. apply distinct_iff in Hn. now rewrite Hn.
Qed.
Lemma alternatives_unique t r r' : alternatives t r -> alternatives t r' -> r = r'.
Proof. intros H H'. apply parse_iff in H, H'. congruence. Qed.
Lemma expansion_text digits spaces words to_string get s t r :
  regex_with_parameters digits spaces words to_string get s = XOk t r -> regex_text t r.
Proof.
  unfold regex_with_parameters, regex_by. destruct (expression_parse s); try discriminate.
  destruct (collect_result _) as [x|[]]; try discriminate. destruct (regex_new x) as [y| |] eqn:E; try discriminate.
  injection 1 as <- <-. now apply regex_new_iff.
Qed.
