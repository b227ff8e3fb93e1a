(** How much an expression with custom parameters matches. *)
From Verif Require Export SpecSizeIn ProofSize ProofLanguage ProofConcatIn.

Section Size.
  Context (digits spaces words : ranges) (to_string : hir -> str) (get : provider span).
  Context (Htab : tables_ok digits spaces words) (Hprint : prints_meaning to_string).
  Context (s : str) (e : expression span) (t : str) (r : re).
  Context (Hs : addressable s) (He : expression_parse s = RetOk e) (Hv : Forall (custom_valid frag get (fun _ => True)) (parameters e)).
  Context (Hr : regex_with_parameters digits spaces words to_string get s = XOk t r).
  Notation digit := (in_ranges digits). Notation space := (in_ranges spaces). Notation word := (in_ranges words).
  Notation type := (custom_type digits spaces words frag get).
  Notation mi := (means_in frag type).

  Lemma match_in subject : rust_string subject -> is_match digit space word r subject <-> exists v, mi e [] subject [] v.
  Proof.
    intros Hx. destruct (any_matchers digits spaces words to_string get Htab Hprint s e He Hv) as [_ H]. specialize (H t r Hr). split.
    - intros (p & m & q & c & -> & M). apply Forall_app in Hx as [_ Hx]. apply Forall_app in Hx as [Hx _].
      destruct (proj1 (H p m q Hx) (ex_intro _ c M)) as (-> & -> & v & Hm). cbn. rewrite app_nil_r. now exists v.
    - intros Hm. destruct (proj2 (H [] subject [] Hx) (conj eq_refl (conj eq_refl Hm))) as (c & M). exists [], subject, [], c.
      rewrite app_nil_r. now split.
  Qed.
  Lemma wf_nodes : Forall (fun x => wf_single (map_single frag x)) e.
  Proof. destruct (parsed_wf s e Hs He) as [[H _] _]. unfold map_expression in H. now rewrite Forall_map in H. Qed.
  Lemma valid_in p : In (ExParameter p) e -> custom_valid frag get (fun _ => True) p.
  Proof. intros H. rewrite Forall_forall in Hv. apply Hv. unfold parameters. apply in_flat_map. exists (ExParameter p). split; [exact H|now left]. Qed.

  (** ** Nothing *)
  Lemma piece_nothing x v : wf_single (map_single frag x) -> single_means frag (fun q s v => type q [] s [] v) x [] v ->
    custom_vanishes digits spaces words frag get x.
  Proof.
    intros Hw H. destruct x as [a|o|p|u|u].
    - apply (proj1 (single_map digit space (ExAlternation a) _ _)) in H. now apply single_nothing in H.
    - exact I.
    - cbn in H |- *. unfold custom_type in H. destruct (get (par_input p)) as [m|].
      + destruct H as (r' & c & H1 & H2 & _). now exists r', c.
      + now apply typed_nothing in H.
    - apply (proj1 (single_map digit space (ExText u) _ _)) in H. now apply single_nothing in H.
    - apply (proj1 (single_map digit space (ExWhitespaces u) _ _)) in H. now apply single_nothing in H.
  Qed.
  Lemma custom_nothing : is_match digit space word r [] <-> Forall (custom_vanishes digits spaces words frag get) e.
  Proof.
    rewrite match_in by constructor. pose proof wf_nodes as Hw. clear Hs He Hv Hr. split.
    - intros (v & H). revert v H. induction Hw as [|x w Hx Hw IH]; intros v H; [constructor|].
      apply mi_cons in H as (s1 & s2 & v1 & v2 & E & -> & H1 & H2). symmetry in E. apply app_eq_nil in E as [-> ->].
      constructor; [now apply piece_nothing in H1|now apply IH in H2].
    - intros H. clear Hw. induction H as [|x w Hx _ IH]; [exists []; constructor|]. destruct IH as (v & IH).
      assert (E : exists v', single_means frag (fun q s v => type q [] s [] v) x [] v').
      { destruct x as [a|o|p|u|u]; try contradiction; [exists []; split; [now right|reflexivity]|].
        cbn in Hx |- *. unfold custom_type. destruct (get (par_input p)) as [m|].
        - destruct Hx as (r' & c & H1 & H2). eexists. exists r', c. now repeat split.
        - exists [Some []]. rewrite Hx. constructor. auto. }
      destruct E as (v' & E). exists (v' ++ v). apply mi_cons. exists [], [], v', v. auto.
  Qed.

  (** ** Something *)
  Lemma rust_piece n : (exists d, scalar d /\ digit d = true) -> (exists c, scalar c /\ space c = false) -> built_in n ->
    forall k, exists p v, typed digit space n p v /\ rust_string p /\ (k <= List.length p)%nat.
  Proof.
    intros (d & Sd & Hd) (c & Sc & Hc) H k. unfold built_in in H. cbn [In] in H.
    assert (L : forall x : char, (k <= List.length (repeat x (S k)))%nat) by (intros x; rewrite repeat_length; lia).
    assert (S : forall n x, scalar x -> rust_string (repeat x n)).
    { intros m x Hx. apply Forall_forall. intros y Hy. apply repeat_spec in Hy. now subst. }
    assert (Sa : scalar (c_ "a")) by (split; cbn; unfold char_max; lia).
    assert (Sq : scalar quote2) by (split; cbn; unfold char_max; lia).
    destruct H as [<-|[<-|[<-|[<-|[<-|[]]]]]].
    - exists (repeat d (Datatypes.S k)), [Some (repeat d (Datatypes.S k))]. split; [|split; [now apply S|apply L]]. constructor.
      exists [], (repeat d (Datatypes.S k)). split; [reflexivity|]. split; [now left|now apply repeat_digits].
    - exists (repeat d (Datatypes.S k)), [Some (repeat d (Datatypes.S k))]. split; [|split; [now apply S|apply L]]. constructor. exists [], (repeat d (Datatypes.S k)).
      split; [reflexivity|]. split; [now left|]. right. right. exists (repeat d (Datatypes.S k)), []. rewrite app_nil_r.
      split; [reflexivity|]. split; [left; now apply repeat_digits|now left].
    - exists (repeat c (Datatypes.S k)), [Some (repeat c (Datatypes.S k))]. split; [|split; [now apply S|apply L]]. constructor. split; [easy|].
      apply Forall_forall. intros x Hx. apply repeat_spec in Hx. now subst.
    - exists (quote2 :: repeat (c_ "a") k ++ [quote2]), [Some (repeat (c_ "a") k); None]. split.
      + constructor. clear L. induction k as [|k IH]; cbn [repeat]; [constructor|]. now apply quoted_char.
      + split; [constructor; [exact Sq|apply Forall_app; split; [now apply S|now constructor]]|]. cbn [List.length]. rewrite app_length, repeat_length. lia.
    - exists (repeat (c_ "a") k), [Some (repeat (c_ "a") k)]. split; [|split; [now apply S|rewrite repeat_length; lia]]. constructor.
      intros Hx. apply repeat_spec in Hx. discriminate.
  Qed.
  Lemma unescape_rust u : rust_string u -> rust_string (unescape u).
  Proof.
    enough (H : forall n u, (List.length u <= n)%nat -> rust_string u -> rust_string (unescape u)) by (now apply (H (List.length u))).
    induction n as [|n IH]; intros [|c u'] L H; try constructor; [cbn in L; lia|]. inversion H as [|? ? Hc Hu]; subst. cbn [unescape].
    destruct (N.eq_dec c (c_ "\")).
    - destruct u' as [|d u']; [constructor|]. inversion Hu; subst. constructor; [assumption|]. apply IH; [cbn in L; lia|assumption].
    - constructor; [assumption|]. apply IH; [cbn in L; lia|assumption].
  Qed.
  Lemma rust_source w : rust_string (source w) -> Forall (fun x => rust_string (src_single x)) w.
  Proof.
    unfold source. induction w as [|x w IH]; cbn [map List.concat]; intros H; [constructor|]. apply Forall_app in H as [H1 H2].
    constructor; [exact H1|now apply IH].
  Qed.
  Lemma rust_branch b : rust_string (src_branch b) -> exists p, branch_means (fun t : str => t) b p /\ rust_string p.
  Proof.
    unfold src_branch. induction b as [|x b IH]; cbn [map List.concat]; intros H; [exists []; split; constructor|].
    apply Forall_app in H as [H1 H2]. destruct (IH H2) as (p & Hp & Rp). destruct x as [o|u].
    - exists ([] ++ p). split; [constructor; [now right|assumption]|assumption].
    - exists (unescape u ++ p). split; [now constructor|]. apply Forall_app. split; [now apply unescape_rust|assumption].
  Qed.
  Lemma first_branch b a : rust_string (join (s_ "/") (map src_branch (b :: a))) -> rust_string (src_branch b).
  Proof.
    destruct a as [|y a]; [intros H; exact H|].
    change (join (s_ "/") (map src_branch (b :: y :: a))) with (src_branch b ++ s_ "/" ++ join (s_ "/") (map src_branch (y :: a))).
    intros H. now apply Forall_app in H as [H _].
  Qed.
  Lemma literal_some x : (forall p, x <> ExParameter p) -> wf_single (map_single frag x) -> rust_string (src_single (map_single frag x)) ->
    exists m, rust_string m /\ forall P, exists v, single_means frag P x m v.
  Proof.
    intros Hp Hw Hx. destruct x as [a|o|p|u|u]; [| |now destruct (Hp p)| |].
    - assert (E : exists m, rust_string m /\ exists v, single_means (fun t : str => t) (fun p => typed digit space (par_input p)) (map_single frag (ExAlternation a)) m v).
      { cbn [map_single] in *. unfold map_alternation in *. destruct (map (map (map_alternative frag)) a) as [|b l]; [destruct Hw as [Hw _]; cbn in Hw; lia|].
        cbn [src_single] in Hx. apply first_branch in Hx. destruct (rust_branch b Hx) as (m & Hm & Rm). exists m. split; [exact Rm|].
        exists []. split; [|reflexivity]. left. exists b. split; [now left|assumption]. }
      destruct E as (m & Rm & v & E). apply (proj2 (single_map digit space (ExAlternation a) _ _)) in E. exists m. split; [exact Rm|]. intros P. exists v. exact E.
    - exists []. split; [constructor|]. intros P. exists []. split; [now right|reflexivity].
    - exists (unescape (frag u)). split; [now apply unescape_rust|]. intros P. now exists [].
    - exists (unescape (frag u)). split; [now apply unescape_rust|]. intros P. now exists [].
  Qed.
  (** Whatever is around. *)
  Definition always (x : single_expression span) (m : str) : Prop :=
    rust_string m /\ forall pre post, exists v, single_means frag (fun q s v => type q pre s post v) x m v.
  Lemma always_means w l : Forall2 always w l -> forall pre post, exists v, mi w pre (List.concat l) post v.
  Proof.
    induction 1 as [|x m w l [_ Hx] _ IH]; intros pre post; [exists []; constructor|]. cbn [List.concat].
    destruct (IH (pre ++ m) post) as (v2 & H2). destruct (Hx pre (List.concat l ++ post)) as (v1 & H1). exists (v1 ++ v2). now constructor.
  Qed.
  Lemma always_matches l : Forall2 always e l -> rust_string (List.concat l) /\ is_match digit space word r (List.concat l).
  Proof.
    intros H. assert (R : rust_string (List.concat l)).
    { clear -H. induction H as [|x m w l [Hm _] _ IH]; cbn; [constructor|]. apply Forall_app. now split. }
    split; [exact R|]. apply match_in; [exact R|]. now apply always_means.
  Qed.
  Context (Hrust : rust_string s) (Hd : exists d, scalar d /\ digit d = true) (Hc : exists c, scalar c /\ space c = false).
  Lemma nodes_rust : Forall (fun x => rust_string (src_single (map_single frag x))) e.
  Proof.
    destruct (parsed_wf s e Hs He) as [_ E]. assert (H : rust_string (source (map_expression frag e))) by now rewrite E.
    apply rust_source in H. unfold map_expression in H. now rewrite Forall_map in H.
  Qed.
  Lemma built_always p k : In (ExParameter p) e -> get (par_input p) = None -> exists m, always (ExParameter p) m /\ (k <= List.length m)%nat.
  Proof.
    intros Hi Hg. apply valid_in in Hi. unfold custom_valid in Hi. rewrite Hg in Hi. destruct (rust_piece _ Hd Hc Hi k) as (m & v & H & R & L).
    exists m. split; [|exact L]. split; [exact R|]. intros pre post. exists v. cbn. unfold custom_type. now rewrite Hg.
  Qed.
  Lemma custom_always p u r' m : get (par_input p) = Some u -> regex_new u = Done r' -> anywhere digits spaces words r' m -> always (ExParameter p) m.
  Proof.
    intros Hg Hu (R & H). split; [exact R|]. intros pre post. destruct (H pre post) as (c & Hm). eexists. cbn. unfold custom_type. rewrite Hg.
    exists r', c. now repeat split.
  Qed.
  Lemma one_always x : In x e -> (forall p, x = ExParameter p -> satisfiable digits spaces words get p) -> exists m, always x m.
  Proof.
    intros Hi Hp. pose proof wf_nodes as Hw. pose proof nodes_rust as Hn. rewrite Forall_forall in Hw, Hn. specialize (Hw x Hi). specialize (Hn x Hi).
    assert (D : (exists p, x = ExParameter p) \/ forall p, x <> ExParameter p) by (destruct x; [right|right|left; eauto|right|right]; discriminate).
    destruct D as [(p & ->)|D].
    - specialize (Hp p eq_refl). destruct (get (par_input p)) as [u|] eqn:G.
      + destruct (Hp u G) as (r' & m & H1 & H2). exists m. now apply (custom_always p u r').
      + destruct (built_always p 0 Hi G) as (m & H & _). now exists m.
    - destruct (literal_some x D Hw Hn) as (m & R & H). exists m. split; [exact R|]. intros pre post. apply H.
  Qed.
  Lemma all_always w : incl w e -> Forall (satisfiable digits spaces words get) (parameters w) -> exists l, Forall2 always w l.
  Proof.
    induction w as [|x w IH]; intros Hi Hp; [exists []; constructor|]. unfold parameters in Hp. cbn [flat_map] in Hp. apply Forall_app in Hp as [Hp1 Hp2].
    destruct (IH (fun y Hy => Hi y (or_intror Hy)) Hp2) as (l & Hl). destruct (one_always x (Hi x (or_introl eq_refl))) as (m & Hm).
    { intros p ->. now inversion Hp1. }
    exists (m :: l). now constructor.
  Qed.
  Theorem custom_something : Forall (satisfiable digits spaces words get) (parameters e) ->
    exists subject, rust_string subject /\ is_match digit space word r subject.
  Proof. intros Hp. destruct (all_always e (incl_refl e) Hp) as (l & Hl). exists (List.concat l). now apply always_matches. Qed.
  Theorem custom_long : Forall (satisfiable digits spaces words get) (parameters e) -> Exists (unbounded digits spaces words get) (parameters e) ->
    forall k, exists subject, rust_string subject /\ is_match digit space word r subject /\ (k <= List.length subject)%nat.
  Proof.
    intros Hp Hu k. apply Exists_exists in Hu as (p & Hi & Hu).
    assert (Hi' : In (ExParameter p) e).
    { unfold parameters in Hi. apply in_flat_map in Hi as (x & Hx & Hi). destruct x; try contradiction. destruct Hi as [->|[]]. exact Hx. }
    apply in_split in Hi' as (e1 & e2 & E).
    assert (Hl : exists m, always (ExParameter p) m /\ (k <= List.length m)%nat).
    { destruct (get (par_input p)) as [u|] eqn:G.
      - destruct (Hu u G) as (r' & H1 & H2). destruct (H2 k) as (m & L & Hm). exists m. split; [|exact L]. now apply (custom_always p u r').
      - apply built_always; [|exact G]. rewrite E. apply in_or_app. right. now left. }
    destruct Hl as (m & Hm & L). rewrite E in Hp. unfold parameters in Hp. rewrite flat_map_app in Hp. cbn [flat_map] in Hp.
    apply Forall_app in Hp as [P1 P2]. apply Forall_app in P2 as [_ P2].
    destruct (all_always e1) as (l1 & H1); [intros y Hy; rewrite E; apply in_or_app; now left|exact P1|].
    destruct (all_always e2) as (l2 & H2); [intros y Hy; rewrite E; apply in_or_app; right; now right|exact P2|].
    assert (F : Forall2 always e (l1 ++ m :: l2)) by (rewrite E; apply Forall2_app; [exact H1|now constructor]).
    apply always_matches in F as [F1 F2]. exists (List.concat (l1 ++ m :: l2)). split; [exact F1|]. split; [exact F2|].
    rewrite concat_app, app_length. cbn [List.concat]. rewrite app_length. lia.
  Qed.
End Size.

Section Short.
  Context (digits spaces words : ranges) (get : provider span).
  Notation type := (custom_type digits spaces words frag get).
  Lemma custom_bound k w : Forall (bounded digits spaces words get k) (parameters w) -> forall pre m post v, rust_string m -> means_in frag type w pre m post v ->
    (List.length m <= List.length (source (map_expression frag w)) + k * List.length (parameters w))%nat.
  Proof.
    induction w as [|x w IH]; intros Hp pre m post v R H.
    - apply mi_nil in H as [-> _]. cbn. lia.
    - apply mi_cons in H as (a & b & v1 & v2 & -> & -> & Ha & Hb). unfold parameters in Hp. cbn [flat_map] in Hp. apply Forall_app in Hp as [Hp1 Hp2].
      apply Forall_app in R as [Ra Rb]. specialize (IH Hp2 _ _ _ _ Rb Hb). unfold source, map_expression, parameters in *. cbn [map List.concat flat_map].
      rewrite !app_length.
      assert (D : (exists p, x = ExParameter p) \/ parameters [map_single frag x] = [] /\ (forall P Q, single_means frag P x a v1 -> single_means frag Q x a v1)).
      { destruct x; [right; now split|right; now split|left; eauto|right; now split|right; now split]. }
      destruct D as [(p & ->)|[D1 D2]].
      + inversion Hp1 as [|? ? (u & r' & G & Hu & B) _]; subst. cbn [single_means] in Ha. unfold custom_type in Ha. rewrite G in Ha.
        destruct Ha as (r0 & c & E & M & _). assert (r0 = r') by congruence. subst r0. apply B in M; [|exact Ra]. cbn [List.length]. lia.
      + assert (L : (List.length a <= List.length (src_single (map_single frag x)))%nat).
        { apply (D2 _ (fun p => typed (fun _ => false) (fun _ => false) (frag (par_input p)))) in Ha. apply (proj1 (single_map _ _ _ _ _)) in Ha.
          pose proof (short (fun _ => false) (fun _ => false) [map_single frag x] a (v1 ++ []) D1) as S. unfold source in S. cbn [map List.concat] in S.
          rewrite !app_nil_r in S. apply S. apply (means_cons (fun t : str => t) (fun _ => false) (fun _ => false)). exists a, [], v1, []. rewrite !app_nil_r.
          repeat (split; [reflexivity|]). split; [exact Ha|]. apply (means_nil (fun t : str => t)). auto. }
        destruct x; cbn [List.length]; cbn in Hp1; try lia.
  Qed.
End Short.
Theorem custom_short digits spaces words to_string get : tables_ok digits spaces words -> prints_meaning to_string ->
  forall s e t r, addressable s -> expression_parse s = RetOk e -> Forall (custom_valid frag get (fun _ => True)) (parameters e) ->
  regex_with_parameters digits spaces words to_string get s = XOk t r ->
  forall k, Forall (bounded digits spaces words get k) (parameters e) ->
  forall subject, rust_string subject -> is_match (in_ranges digits) (in_ranges spaces) (in_ranges words) r subject ->
  (List.length subject <= List.length s + k * List.length (parameters e))%nat.
Proof.
  intros Htab Hp s e t r Hs He Hv Hr k Hk subject R H.
  apply (match_in digits spaces words to_string get Htab Hp s e t r He Hv Hr subject R) in H as (v & H).
  apply (custom_bound digits spaces words get k e Hk) in H; [|exact R]. destruct (parsed_wf s e Hs He) as [_ E]. now rewrite E in H.
Qed.
