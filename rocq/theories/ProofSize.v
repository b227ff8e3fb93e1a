(** How much an expression matches: something, nothing, finitely many subjects. *)
From Verif Require Export ProofConcat SpecSize.

Section Size.
  Context (digit space : char -> bool).
  Notation means_str := (means (fun t : str => t) (fun p => typed digit space (par_input p))).
  Notation single := (single_means (fun t : str => t) (fun p => typed digit space (par_input p))).
  Notation cons_iff := (means_cons (fun t : str => t) digit space).

  (** ** Something *)
  Lemma repeat_digits d n : digit d = true -> number digit (repeat d (S n)).
  Proof. intros H. split; [easy|]. apply Forall_forall. intros c Hc. apply repeat_spec in Hc. now subst. Qed.
  Lemma long_piece n : (exists d, digit d = true) -> (exists c, space c = false) -> built_in n ->
    forall k, exists p v, typed digit space n p v /\ (k <= List.length p)%nat.
  Proof.
    intros (d & Hd) (c & Hc) H k. unfold built_in in H. cbn [In] in H.
    assert (L : forall x : char, (k <= List.length (repeat x (S k)))%nat) by (intros x; rewrite repeat_length; lia).
    destruct H as [<-|[<-|[<-|[<-|[<-|[]]]]]].
    - exists (repeat d (S k)), [Some (repeat d (S k))]. split; [|apply L]. constructor. exists [], (repeat d (S k)).
      repeat split; auto; now apply repeat_digits.
    - exists (repeat d (S k)), [Some (repeat d (S k))]. split; [|apply L]. constructor. exists [], (repeat d (S k)).
      split; [reflexivity|]. split; [now left|]. right. right. exists (repeat d (S k)), []. rewrite app_nil_r.
      split; [reflexivity|]. split; [left; now apply repeat_digits|now left].
    - exists (repeat c (S k)), [Some (repeat c (S k))]. split; [|apply L]. constructor. split; [easy|].
      apply Forall_forall. intros x Hx. apply repeat_spec in Hx. now subst.
    - exists (quote2 :: repeat (c_ "a") k ++ [quote2]), [Some (repeat (c_ "a") k); None]. split.
      + constructor. clear L. induction k as [|k IH]; cbn [repeat]; [constructor|]. now apply quoted_char.
      + cbn [List.length]. rewrite app_length, repeat_length. lia.
    - exists (repeat (c_ "a") k), [Some (repeat (c_ "a") k)]. split; [|rewrite repeat_length; lia]. constructor.
      intros Hx. apply repeat_spec in Hx. discriminate.
  Qed.
  Lemma branch_some b : exists p, branch_means (fun t : str => t) b p.
  Proof.
    induction b as [|x b (p & IH)]; [exists []; constructor|]. destruct x as [o|t].
    - exists ([] ++ p). constructor; [now right|assumption].
    - exists (unescape t ++ p). now constructor.
  Qed.
  Lemma single_some x : wf_single x -> (exists d, digit d = true) -> (exists c, space c = false) ->
    (forall p, x = ExParameter p -> built_in (par_input p)) -> exists s v, single x s v.
  Proof.
    intros Hx Hd Hc Hb. destruct x as [a|o|p|t|t].
    - destruct a as [|b a]; [destruct Hx as [Hx _]; cbn in Hx; lia|]. destruct (branch_some b) as (p & Hp).
      exists p, []. split; [|reflexivity]. left. exists b. split; [now left|assumption].
    - exists [], []. split; [now right|reflexivity].
    - destruct (long_piece (par_input p) Hd Hc (Hb p eq_refl) 0) as (s & v & H & _). now exists s, v.
    - now exists (unescape t), [].
    - now exists (unescape t), [].
  Qed.
  Lemma some w : Forall wf_single w -> (exists d, digit d = true) -> (exists c, space c = false) ->
    Forall (fun p => built_in (par_input p)) (parameters w) -> exists s v, means_str w s v.
  Proof.
    intros H Hd Hc. induction H as [|x w Hx Hw IH]; intros Hb.
    - exists [], []. apply (means_nil (fun t : str => t)). auto.
    - assert (Hb' : Forall (fun p => built_in (par_input p)) (parameters w)).
      { unfold parameters in *. cbn [flat_map] in Hb. now apply Forall_app in Hb as [_ Hb]. }
      destruct (IH Hb') as (s & v & H). destruct (single_some x Hx Hd Hc) as (s' & v' & H').
      { intros p ->. unfold parameters in Hb. cbn [flat_map app] in Hb. now apply Forall_inv in Hb. }
      exists (s' ++ s), (v' ++ v). apply cons_iff. exists s', s, v', v. auto.
  Qed.

  (** ** Nothing *)
  Lemma content_unescape special t : In backslash special -> content special t -> t <> [] -> unescape t <> [].
  Proof.
    intros Hs [|c t' H _|c t' H _] Hne; [easy| |]; cbn [unescape].
    - destruct (N.eq_dec c (c_ "\")) as [->|_]; [contradiction|easy].
    - destruct (N.eq_dec backslash (c_ "\")); easy.
  Qed.
  Lemma spaces_unescape t : Forall (fun c => c = c_ " ") t -> t <> [] -> unescape t <> [].
  Proof. intros [|c t' -> _] Hne; [easy|]. cbn [unescape]. destruct (N.eq_dec (c_ " ") (c_ "\")); easy. Qed.
  Lemma branch_some_text b p : wf_branch b -> branch_means (fun t : str => t) b p -> p <> [].
  Proof.
    intros (Hw & Ht & _) H. induction H as [|x b p q Hx Hb IH]; [inversion Ht|]. inversion_clear Hw as [|? ? Hw1 Hw2].
    inversion_clear Ht as [? ? Ht'|? ? Ht'].
    - destruct x as [o|t]; [easy|]. cbn in Hx. subst p. destruct Hw1 as [Hne Hw1].
      intros E. apply app_eq_nil in E as [E _]. revert E. apply (content_unescape text_special); [cbn; auto 10|assumption|assumption].
    - intros E. apply app_eq_nil in E as [_ E]. now apply IH in E.
  Qed.
  Lemma typed_nothing n v : typed digit space n [] v -> n = [].
  Proof.
    assert (Nu : ~ number digit []) by (intros [H _]; now apply H).
    assert (Sg : forall l P, (~ P []) -> ~ signed l P []).
    { intros l P HP (sign & b & E & _ & H). symmetry in E. apply app_eq_nil in E as [_ ->]. contradiction. }
    intros H. inversion H as [p Hp|p Hp|p Hp|b Hb E|b Hb E|p Hp]; subst.
    - now apply Sg in Hp.
    - apply Sg in Hp; [easy|]. intros [E|[E|(m & x & E & Hm & _)]]; [discriminate|discriminate|].
      symmetry in E. apply app_eq_nil in E as [-> _]. destruct Hm as [Hm|(a & b & E & _)]; [contradiction|]. now destruct a.
    - destruct Hp as [Hp _]. now destruct Hp.
    - reflexivity.
  Qed.
  Lemma single_nothing x v : wf_single x -> single x [] v -> may_vanish (fun t : str => t) x.
  Proof.
    intros Hw H. destruct x as [a|o|p|t|t]; cbn in *.
    - destruct H as [[(b & Hb & H)|[-> _]] _]; [|destruct Hw as [Hw _]; cbn in Hw; lia].
      destruct Hw as [_ Hw]. rewrite Forall_forall in Hw. now apply (branch_some_text b [] (Hw b Hb)).
    - exact I.
    - now apply typed_nothing in H.
    - destruct H as [H _], Hw as [Hne Hw]. symmetry in H. revert H. apply (content_unescape text_special); [cbn; auto 10|assumption|assumption].
    - destruct H as [H _], Hw as [Hne Hw]. symmetry in H. revert H. now apply spaces_unescape.
  Qed.
  Lemma nothing w : Forall wf_single w -> (exists v, means_str w [] v) <-> Forall (may_vanish (fun t : str => t)) w.
  Proof.
    intros Hw. split.
    - intros (v & H). revert v H. induction Hw as [|x w Hx Hw IH]; intros v H; [constructor|].
      apply cons_iff in H as (s1 & s2 & v1 & v2 & E & -> & H1 & H2). symmetry in E. apply app_eq_nil in E as [-> ->].
      constructor; [now apply single_nothing in H1|now apply IH in H2].
    - intros H. induction H as [|x w Hx _ IH]; [exists []; apply (means_nil (fun t : str => t)); auto|].
      inversion_clear Hw as [|? ? Hw1 Hw2]. destruct (IH Hw2) as (v & IH').
      assert (E : exists v', single x [] v').
      { destruct x as [a|o|p|t|t]; try contradiction; [exists []; split; [now right|reflexivity]|].
        exists [Some []]. cbn in Hx |- *. rewrite Hx. constructor. auto. }
      destruct E as (v' & E). exists (v' ++ v). apply cons_iff. exists [], [], v', v. auto.
  Qed.

  (** ** Finitely many *)
  Lemma unescape_short t : (List.length (unescape t) <= List.length t)%nat.
  Proof.
    enough (H : forall n t, (List.length t <= n)%nat -> (List.length (unescape t) <= List.length t)%nat) by (apply (H (List.length t)); lia).
    clear t. induction n as [|n IH]; intros [|c t] H; cbn [unescape List.length] in *; try lia.
    destruct (N.eq_dec c (c_ "\")); [|cbn [List.length]; specialize (IH t); unfold str, char in *; lia].
    destruct t as [|d t]; cbn [List.length] in *; [lia|]. specialize (IH t). unfold str, char in *. lia.
  Qed.
  Definition choices (a b : list str) : list str := flat_map (fun x => map (fun y => x ++ y) b) a.
  Lemma in_choices s a b : In s (choices a b) <-> exists x y, s = x ++ y /\ In x a /\ In y b.
  Proof.
    unfold choices. rewrite in_flat_map. split.
    - intros (x & Hx & H). apply in_map_iff in H as (y & <- & Hy). now exists x, y.
    - intros (x & y & -> & Hx & Hy). exists x. split; [assumption|]. now apply in_map.
  Qed.
  Definition alternative_strings (a : alternative str) : list str :=
    match a with AltOptional o => [unescape (opt_input o); []] | AltText t => [unescape t] end.
  Fixpoint branch_strings (b : single_alternation str) : list str :=
    match b with [] => [[]] | a :: b' => choices (alternative_strings a) (branch_strings b') end.
  Definition single_strings (x : single_expression str) : list str :=
    match x with
    | ExAlternation [] => [[]]
    | ExAlternation a => flat_map branch_strings a
    | ExOptional o => [unescape (opt_input o); []]
    | ExParameter _ => []
    | ExText t | ExWhitespaces t => [unescape t]
    end.
  Fixpoint strings (w : expression str) : list str :=
    match w with [] => [[]] | x :: w' => choices (single_strings x) (strings w') end.
  Lemma in_branch b s : In s (branch_strings b) <-> branch_means (fun t : str => t) b s.
  Proof.
    revert s. induction b as [|a b IH]; intros s; cbn [branch_strings].
    - split; [intros [<-|[]]; constructor|intros H; inversion H; now left].
    - rewrite in_choices. split.
      + intros (x & y & -> & Hx & Hy). constructor; [|now apply IH].
        destruct a as [o|t]; cbn in Hx |- *; unfold optional_means; intuition (subst; auto).
      + intros H. inversion H as [|? ? p q Hp Hq]; subst. exists p, q. split; [reflexivity|]. split; [|now apply IH].
        destruct a as [o|t]; cbn in Hp |- *; unfold optional_means in *; intuition (subst; auto).
  Qed.
  Lemma in_single x s : (forall p, x <> ExParameter p) -> In s (single_strings x) <-> exists v, single x s v.
  Proof.
    intros Hp. destruct x as [a|o|p|t|t]; cbn [single_strings single_means]; [| |now destruct (Hp p)| |].
    - unfold alternation_means. destruct a as [|b a].
      + split; [intros [<-|[]]; exists []; split; [now right|reflexivity]|].
        intros (v & [(b & [] & _)|[_ ->]] & _). now left.
      + rewrite in_flat_map. split.
        * intros (x & Hx & H). exists []. split; [|reflexivity]. left. exists x. split; [assumption|now apply in_branch].
        * intros (v & [(x & Hx & H)|[E _]] & _); [|discriminate]. exists x. split; [assumption|now apply in_branch].
    - unfold optional_means. split; [intros [<-|[<-|[]]]; exists []; auto|]. intros (v & [-> | ->] & _); cbn; auto.
    - split; [intros [<-|[]]; exists []; auto|]. intros (v & -> & _). now left.
    - split; [intros [<-|[]]; exists []; auto|]. intros (v & -> & _). now left.
  Qed.
  Lemma in_strings w : parameters w = [] -> forall s, In s (strings w) <-> exists v, means_str w s v.
  Proof.
    induction w as [|x w IH]; intros Hp s; cbn [strings].
    - split; [intros [<-|[]]; exists []; apply (means_nil (fun t : str => t)); auto|].
      intros (v & H). apply (means_nil (fun t : str => t)) in H as [-> _]. now left.
    - assert (Hx : forall p, x <> ExParameter p) by (intros p ->; discriminate).
      assert (Hw : parameters w = []) by (unfold parameters in *; cbn [flat_map] in Hp; now apply app_eq_nil in Hp).
      rewrite in_choices. split.
      + intros (a & b & -> & Ha & Hb). apply (in_single x a Hx) in Ha as (v1 & Ha). apply (IH Hw) in Hb as (v2 & Hb).
        exists (v1 ++ v2). apply cons_iff. exists a, b, v1, v2. auto.
      + intros (v & H). apply cons_iff in H as (a & b & v1 & v2 & -> & -> & Ha & Hb). exists a, b. split; [reflexivity|].
        split; [apply (in_single x a Hx); now exists v1|apply (IH Hw); now exists v2].
  Qed.
  Lemma branch_short b s : branch_means (fun t : str => t) b s -> (List.length s <= List.length (src_branch b))%nat.
  Proof.
    induction 1 as [|a b p q Hp _ IH]; [cbn; lia|]. unfold src_branch in *. cbn [map List.concat]. rewrite !app_length.
    enough (List.length p <= List.length (src_alternative a))%nat by lia. destruct a as [o|t]; cbn in Hp |- *.
    - pose proof (unescape_short (opt_input o)). rewrite app_length. destruct Hp as [-> | ->]; cbn; lia.
    - subst p. apply unescape_short.
  Qed.
  Lemma join_long b a : In b a -> (List.length (src_branch b) <= List.length (join (s_ "/") (map src_branch a)))%nat.
  Proof.
    induction a as [|x a IH]; intros []; [subst x|]; cbn [map]; destruct a as [|y a].
    - cbn. lia.
    - change (join (s_ "/") (src_branch b :: map src_branch (y :: a))) with (src_branch b ++ s_ "/" ++ join (s_ "/") (map src_branch (y :: a))).
      rewrite app_length. lia.
    - contradiction.
    - change (join (s_ "/") (src_branch x :: map src_branch (y :: a))) with (src_branch x ++ s_ "/" ++ join (s_ "/") (map src_branch (y :: a))).
      rewrite !app_length. specialize (IH H). lia.
  Qed.
  Lemma short w s v : parameters w = [] -> means_str w s v -> (List.length s <= List.length (source w))%nat.
  Proof.
    revert s v. induction w as [|x w IH]; intros s v Hp H.
    - apply (means_nil (fun t : str => t)) in H as [-> _]. cbn. lia.
    - apply cons_iff in H as (a & b & v1 & v2 & -> & -> & Ha & Hb).
      assert (Hw : parameters w = []) by (unfold parameters in *; cbn [flat_map] in Hp; now apply app_eq_nil in Hp).
      specialize (IH b v2 Hw Hb). unfold source in *. cbn [map List.concat]. rewrite !app_length.
      enough (List.length a <= List.length (src_single x))%nat by lia. clear -Ha Hp.
      destruct x as [l|o|p|t|t]; cbn [src_single single_means] in *.
      + destruct Ha as [[(y & Hy & H)|[-> ->]] _]; [|cbn; lia]. apply branch_short in H. apply join_long in Hy. lia.
      + rewrite !app_length. pose proof (unescape_short (opt_input o)). destruct Ha as [[-> | ->] _]; cbn; lia.
      + discriminate.
      + destruct Ha as [-> _]. apply unescape_short.
      + destruct Ha as [-> _]. apply unescape_short.
  Qed.
  (** With a parameter, any length is exceeded. *)
  Lemma long w : Forall wf_single w -> (exists d, digit d = true) -> (exists c, space c = false) ->
    Forall (fun p => built_in (par_input p)) (parameters w) -> parameters w <> [] ->
    forall k, exists s v, means_str w s v /\ (k <= List.length s)%nat.
  Proof.
    intros H Hd Hc. induction H as [|x w Hx Hw IH]; intros Hb Hp k; [easy|].
    assert (Hb' : Forall (fun p => built_in (par_input p)) (parameters w)).
    { unfold parameters in *. cbn [flat_map] in Hb. now apply Forall_app in Hb as [_ Hb]. }
    assert (J : forall a b v1 v2, single x a v1 -> means_str w b v2 -> means_str (x :: w) (a ++ b) (v1 ++ v2)).
    { intros a b v1 v2 A B. apply cons_iff. exists a, b, v1, v2. auto. }
    assert (B : forall p, x = ExParameter p -> built_in (par_input p)).
    { intros p ->. unfold parameters in Hb. cbn [flat_map app] in Hb. now apply Forall_inv in Hb. }
    assert (D : (exists p, x = ExParameter p) \/ parameters w <> []).
    { destruct x; try (right; exact Hp). left. eauto. }
    destruct D as [(p & ->)|D].
    - destruct (long_piece (par_input p) Hd Hc (B p eq_refl) k) as (a & v1 & A & L).
      destruct (some w Hw Hd Hc Hb') as (b & v2 & M). exists (a ++ b), (v1 ++ v2). split; [now apply J|]. rewrite app_length. lia.
    - destruct (IH Hb' D k) as (b & v2 & M & L). destruct (single_some x Hx Hd Hc B) as (a & v1 & A).
      exists (a ++ b), (v1 ++ v2). split; [now apply J|]. rewrite app_length. lia.
  Qed.
End Size.

Lemma parameters_map {I J} (f : I -> J) e : parameters (map_expression f e) = map (map_parameter f) (parameters e).
Proof.
  unfold parameters, map_expression. induction e as [|x e IH]; [reflexivity|]. cbn [map flat_map]. rewrite IH, map_app. now destruct x.
Qed.
Section Regex.
  Context (s : str) (e : expression span) (t : str) (r : re).
  Context (Hs : addressable s) (He : expression_parse s = RetOk e) (Hr : expression_regex s = XOk t r).
  Context (digit space word : char -> bool).
  Lemma match_iff subject : is_match digit space word r subject <->
    exists v, means (fun t : str => t) (fun p => typed digit space (par_input p)) (map_expression frag e) subject v.
  Proof.
    etransitivity; [exact (regex_matches_meaning s e t r Hs He Hr digit space word subject)|].
    split; intros (v & H); exists v; now apply means_map.
  Qed.
  Lemma nodes_wf : Forall wf_single (map_expression frag e).
  Proof. now destruct (parsed_wf s e Hs He) as [[H _] _]. Qed.
  Lemma built : Forall (fun p => built_in (par_input p)) (parameters (map_expression frag e)).
  Proof.
    destruct (regex_inv s e t r Hs He Hr) as (H & _). unfold all_built_in in H. rewrite parameters_map, Forall_map.
    eapply Forall_impl; [|exact H]. intros p Hp. exact Hp.
  Qed.
  Lemma matches_something : (exists d, digit d = true) -> (exists c, space c = false) ->
    exists subject, is_match digit space word r subject.
  Proof.
    intros Hd Hc. destruct (some digit space _ nodes_wf Hd Hc built) as (x & v & H). exists x. apply match_iff. now exists v.
  Qed.
  Lemma vanish_map (x : single_expression span) : may_vanish (fun t : str => t) (map_single frag x) <-> may_vanish frag x.
  Proof. destruct x; reflexivity. Qed.
  Lemma matches_nothing : is_match digit space word r [] <-> Forall (may_vanish frag) e.
  Proof.
    rewrite match_iff, (nothing digit space _ nodes_wf). unfold map_expression. rewrite Forall_map.
    split; apply Forall_impl; intros x; apply vanish_map.
  Qed.
  Lemma finitely_many : parameters e = [] ->
    exists l, (forall subject, is_match digit space word r subject <-> In subject l) /\
      Forall (fun x => (List.length x <= List.length s)%nat) l.
  Proof.
    intros Hp. assert (Hp' : parameters (map_expression frag e) = []) by now rewrite parameters_map, Hp.
    exists (strings (map_expression frag e)).
    assert (E : forall subject, is_match digit space word r subject <-> In subject (strings (map_expression frag e))).
    { intros subject. rewrite match_iff. symmetry. now apply in_strings. }
    split; [exact E|]. apply Forall_forall. intros x Hx. apply E, match_iff in Hx as (v & Hx).
    apply short in Hx; [|assumption]. now destruct (parsed_wf s e Hs He) as [_ <-].
  Qed.
  Lemma arbitrarily_long : (exists d, digit d = true) -> (exists c, space c = false) -> parameters e <> [] ->
    forall k, exists subject, is_match digit space word r subject /\ (k <= List.length subject)%nat.
  Proof.
    intros Hd Hc Hp k. destruct (long digit space _ nodes_wf Hd Hc built) with (k := k) as (x & v & H & L).
    { rewrite parameters_map. now destruct (parameters e). }
    exists x. split; [|assumption]. apply match_iff. now exists v.
  Qed.
End Regex.
