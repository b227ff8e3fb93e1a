(** Proofs about the errors' messages and their advice. *)
From Coq Require Import Lia PeanoNat.
From Verif Require Import Messages SpecMessages Parse ProofParse CharLevel.

(** ** Texts that end between two tokens *)
Definition aligned (p : str) : Prop := content [backslash] p.
Lemma content_aligned special t : In backslash special -> content special t -> aligned t.
Proof.
  intros Hb. induction 1; [constructor| |now constructor].
  constructor; [|assumption]. intros [<-|[]]. easy.
Qed.
Lemma aligned_app p q : aligned p -> aligned q -> aligned (p ++ q).
Proof. intros Hp Hq. induction Hp; [assumption| |]; cbn; now constructor. Qed.
Lemma aligned_plain c : c <> backslash -> aligned [c].
Proof. intros H. constructor; [|constructor]. intros [E|[]]. now apply H. Qed.
Lemma aligned_concat l : Forall aligned l -> aligned (List.concat l).
Proof. induction 1; [constructor|]. now apply aligned_app. Qed.
Ltac plain := apply aligned_plain; vm_compute; discriminate.
Ltac special := vm_compute; tauto.

Lemma aligned_optional o : wf_optional o -> aligned (s_ "(" ++ opt_input o ++ s_ ")").
Proof.
  intros [_ H]. apply aligned_app; [plain|]. apply aligned_app; [|plain].
  eapply content_aligned; [|exact H]. special.
Qed.
Lemma aligned_alternative a : wf_alternative a -> aligned (src_alternative a).
Proof.
  destruct a as [o|t]; cbn.
  - apply aligned_optional.
  - intros [_ H]. eapply content_aligned; [|exact H]. special.
Qed.
Lemma aligned_branch b : Forall wf_alternative b -> aligned (src_branch b).
Proof.
  intros H. apply aligned_concat, Forall_map. eapply Forall_impl; [|exact H]. exact aligned_alternative.
Qed.
Lemma aligned_join l : Forall aligned l -> aligned (join (s_ "/") l).
Proof.
  induction 1 as [|x l Hx Hl IH]; [constructor|]. cbn [join]. destruct l; [assumption|].
  apply aligned_app; [assumption|]. apply aligned_app; [plain|assumption].
Qed.
Lemma aligned_slashed a : Forall branch a -> aligned (slashed a).
Proof.
  intros H. apply aligned_concat, Forall_map. eapply Forall_impl; [|exact H].
  intros b [_ [Hb _]]. apply aligned_app; [now apply aligned_branch|plain].
Qed.
Lemma aligned_single x : wf_single x -> aligned (src_single x).
Proof.
  destruct x as [a|o|p|t|w]; cbn [wf_single src_single].
  - intros [_ H]. apply aligned_join, Forall_map. eapply Forall_impl; [|exact H].
    intros b [Hb _]. now apply aligned_branch.
  - apply aligned_optional.
  - intros H. apply aligned_app; [plain|]. apply aligned_app; [|plain].
    eapply content_aligned; [|exact H]. special.
  - intros [_ H]. eapply content_aligned; [|exact H]. special.
  - intros [_ H]. induction H as [|c w -> _ IH]; [constructor|]. constructor; [|exact IH].
    vm_compute. intuition discriminate.
Qed.
Lemma aligned_source x : Forall wf_single x -> aligned (source x).
Proof.
  intros H. apply aligned_concat, Forall_map. eapply Forall_impl; [|exact H]. exact aligned_single.
Qed.

(** ** Where errors point to *)
Definition culprits : str := s_ "({/\".
Definition points {I} (e : error I) (t : str) : Prop :=
  exists u c v, t = u ++ c :: v /\ aligned u /\ In c culprits /\
    ((culprit e = [c] /\ c <> backslash) \/
     (culprit e = reserved /\ u = [] /\ v = [] /\ c <> backslash) \/
     (culprit e = [backslash] /\ u = [] /\ c = backslash /\ exists d, v = [d] /\ ~ In d reserved)).
Definition pointed (s : str) (e : error text_at) : Prop :=
  exists p t post, error_span e = Some (p, t) /\ s = p ++ t ++ post /\ aligned p /\
    ((exists q, s = q ++ [backslash] /\ aligned q) \/ points e t).

Lemma error_span_map {I J} (f : I -> J) e : error_span (map_error f e) = option_map f (error_span e).
Proof. destruct e; reflexivity. Qed.
Lemma culprit_map {I J} (f : I -> J) e : culprit (map_error f e) = culprit e.
Proof. destruct e; reflexivity. Qed.
Lemma points_map {I J} (f : I -> J) e t : points (map_error f e) t <-> points e t.
Proof. unfold points. rewrite culprit_map. reflexivity. Qed.

Lemma pointed_after q s e : aligned q -> pointed s e -> pointed (q ++ s) (after q e).
Proof.
  intros Hq (p & t & post & He & -> & Hp & H). exists (q ++ p), t, post.
  assert (Hsp : error_span (after q e) = Some (q ++ p, t)).
  { unfold after. rewrite error_span_map. etransitivity; [exact (f_equal (option_map _) He)|reflexivity]. }
  rewrite Hsp.
  repeat split; [now rewrite <- app_assoc|now apply aligned_app|].
  destruct H as [(r & Hr & Hra) | H]; [left|right; now apply points_map].
  exists (q ++ r). split; [now rewrite Hr, app_assoc|now apply aligned_app].
Qed.

Lemma points_first {I} (e : error I) c v : In c culprits -> culprit e = [c] -> c <> backslash ->
  points e (c :: v).
Proof. intros Hc He Hn. exists [], c, v. repeat split; [constructor|assumption|left; auto]. Qed.
Lemma points_one {I} (e : error I) c : In c culprits -> culprit e = reserved -> c <> backslash ->
  points e [c].
Proof. intros Hc He Hn. exists [], c, []. repeat split; [constructor|assumption|right; left; auto]. Qed.

Lemma pointed_broken special s e : In backslash special -> broken_text special s e -> pointed s e.
Proof.
  intros Hb [|t Hn Ht|t c r Ht Hc].
  - exists [], [backslash], []. repeat split; [constructor|]. left. exists []. split; [reflexivity|constructor].
  - exists [], (firstn 2 (t ++ [backslash])), (skipn 2 (t ++ [backslash])).
    rewrite firstn_skipn. repeat split; [constructor|]. left. exists t. split; [reflexivity|].
    eapply content_aligned; eassumption.
  - exists t, [backslash; c], r. repeat split; [eapply content_aligned; eassumption|].
    right. exists [], backslash, [c]. repeat split; [constructor|special|]. right; right.
    repeat split. now exists c.
Qed.

Lemma aligned_open_name t : content name_special t -> aligned (s_ "{" ++ t).
Proof. intros H. apply aligned_app; [plain|]. eapply content_aligned; [|exact H]. special. Qed.
Lemma aligned_open_optional t : content optional_special t -> aligned (s_ "(" ++ t).
Proof. intros H. apply aligned_app; [plain|]. eapply content_aligned; [|exact H]. special. Qed.
Ltac shape := split; [reflexivity|split; [rewrite <- ?app_assoc; reflexivity|split]].
Ltac first_ := apply points_first; [special|reflexivity|vm_compute; discriminate].
Ltac one_ := apply points_one; [special|reflexivity|vm_compute; discriminate].

Lemma pointed_parameter s e : parameter_error s e -> pointed s e.
Proof.
  destruct 1 as [s e H|t Ht|t s n r Ht [-> Hn] _|t s n r Ht [-> _]|t r Ht _|t r Ht _|t r Ht].
  - apply pointed_after; [plain|]. eapply pointed_broken; [|exact H]. special.
  - exists [], (s_ "{"), t. shape; [constructor|right; first_].
  - exists (s_ "{" ++ t), (s_ "{" ++ n ++ s_ "}"), r.
    shape; [now apply aligned_open_name|right; first_].
  - exists (s_ "{" ++ t), (s_ "(" ++ n ++ s_ ")"), r.
    shape; [now apply aligned_open_name|right; first_].
  - exists (s_ "{" ++ t), (s_ "{"), r.
    shape; [now apply aligned_open_name|right; one_].
  - exists (s_ "{" ++ t), (s_ "("), r.
    shape; [now apply aligned_open_name|right; one_].
  - exists (s_ "{" ++ t), (s_ "/"), r.
    shape; [now apply aligned_open_name|right; one_].
Qed.
Lemma pointed_optional s e : optional_error s e -> pointed s e.
Proof.
  destruct 1 as [s e H|t Ht|r|t s n r Ht [-> _] _|t s n r Ht [-> _]|t r Ht|t r Ht _|t r Ht _].
  - apply pointed_after; [plain|]. eapply pointed_broken; [|exact H]. special.
  - exists [], (s_ "("), t. shape; [constructor|right; first_].
  - exists [], (s_ "()"), r. shape; [constructor|right; first_].
  - exists (s_ "(" ++ t), (s_ "(" ++ n ++ s_ ")"), r.
    shape; [now apply aligned_open_optional|right; first_].
  - exists (s_ "(" ++ t), (s_ "{" ++ n ++ s_ "}"), r.
    shape; [now apply aligned_open_optional|right; first_].
  - exists (s_ "(" ++ t), (s_ "/"), r.
    shape; [now apply aligned_open_optional|right; first_].
  - exists (s_ "(" ++ t), (s_ "("), r.
    shape; [now apply aligned_open_optional|right; one_].
  - exists (s_ "(" ++ t), (s_ "{"), r.
    shape; [now apply aligned_open_optional|right; one_].
Qed.

Lemma open_in_join a : Forall branch a -> Exists (fun b => ~ Exists is_text b) a ->
  exists u v, join (s_ "/") (map src_branch a) = u ++ c_ "(" :: v /\ aligned u.
Proof.
  intros Ha H. revert Ha. induction H as [b a H|b a H IH]; intros Ha.
  - apply Forall_cons_iff in Ha as [[Hn [Hw _]] _].
    destruct b as [|[o|t] b]; [easy| |destruct H; now left].
    assert (exists v, src_branch (AltOptional o :: b) = c_ "(" :: v) as [v Hv] by (eexists; reflexivity).
    destruct a as [|b' a]; cbn [map join]; rewrite Hv; [exists [], v|exists [], (v ++ s_ "/" ++ join (s_ "/") (map src_branch (b' :: a)))];
      split; try reflexivity; constructor.
  - apply Forall_cons_iff in Ha as [[Hn [Hw _]] Ha]. destruct (IH Ha) as (u & v & E & Hu).
    destruct a as [|b' a]; [inversion H|].
    change (join (s_ "/") (map src_branch (b :: b' :: a)))
      with (src_branch b ++ s_ "/" ++ join (s_ "/") (map src_branch (b' :: a))).
    rewrite E. exists (src_branch b ++ s_ "/" ++ u), v.
    split; [now rewrite <- !app_assoc|]. apply aligned_app; [now apply aligned_branch|]. apply aligned_app; [plain|assumption].
Qed.

Lemma pointed_alternation s e : alternation_error s e -> pointed s e.
Proof.
  destruct 1 as [a b s e Ha Hb _ H|r|a b r Ha Hb _|a r _ Ha _ H].
  - rewrite app_assoc. apply pointed_after.
    + apply aligned_app; [now apply aligned_slashed|]. destruct Hb. now apply aligned_branch.
    + destruct H as [H|H]; [now apply pointed_optional|]. eapply pointed_broken; [|exact H]. special.
  - exists [], (s_ "/"), r. shape; [constructor|right; first_].
  - exists (slashed a ++ src_branch b), (s_ "/"), r.
    shape; [ |right; first_].
    apply aligned_app; [now apply aligned_slashed|]. destruct Hb as [_ [Hb _]]. now apply aligned_branch.
  - exists [], (join (s_ "/") (map src_branch a)), r. shape; [constructor|]. right.
    destruct (open_in_join a Ha H) as (u & v & -> & Hu).
    exists u, (c_ "("), v. repeat split; [assumption|special|]. left. split; [reflexivity|vm_compute; discriminate].
Qed.
Lemma pointed_expression s e : expression_error s e -> pointed s e.
Proof.
  destruct 1 as [x s e Hx _ _ H]. apply pointed_after; [now apply aligned_source|].
  destruct H; [now apply pointed_parameter|now apply pointed_alternation].
Qed.

(** ** Backslashes *)
Lemma backslashes_app r c q : c <> backslash -> backslashes (r ++ c :: q) = backslashes r.
Proof.
  intros Hc. induction r as [|d r IH]; cbn [app backslashes].
  - now destruct (N.eqb_spec c backslash).
  - now rewrite IH.
Qed.
Lemma backslashes_app2 r q : (q = [] \/ exists c q', q = c :: q' /\ c <> backslash) ->
  backslashes (r ++ q) = backslashes r.
Proof.
  intros [->|(c & q' & -> & Hc)]; [now rewrite app_nil_r|now apply backslashes_app].
Qed.
Lemma aligned_unescaped_gen p : aligned p -> forall q, unescaped_after q -> unescaped_after (q ++ p).
Proof.
  unfold unescaped_after. induction 1 as [|c t Hc _ IH|c t Hc _ IH]; intros q Hq.
  - now rewrite app_nil_r.
  - replace (q ++ c :: t) with ((q ++ [c]) ++ t) by now rewrite <- app_assoc. apply IH.
    rewrite rev_app_distr. cbn [rev app backslashes]. destruct (N.eqb_spec c backslash) as [->|]; [|reflexivity].
    exfalso. apply Hc. now left.
  - replace (q ++ backslash :: c :: t) with ((q ++ [backslash; c]) ++ t) by now rewrite <- app_assoc. apply IH.
    rewrite rev_app_distr. cbn [rev app backslashes]. destruct (c =? backslash); [|reflexivity].
    rewrite N.eqb_refl. exact Hq.
Qed.
Lemma aligned_unescaped p : aligned p -> unescaped_after p.
Proof. intros H. apply (aligned_unescaped_gen p H []). reflexivity. Qed.

(** A char in front changes nothing, unless it is a backslash. *)
Lemma unescaped_cons c p : c <> backslash -> unescaped_after (c :: p) <-> unescaped_after p.
Proof.
  intros Hc. unfold unescaped_after. cbn [rev]. now rewrite backslashes_app by assumption.
Qed.
Lemma backslashes_snoc r : backslashes (r ++ [backslash]) =
  if Nat.eqb (backslashes r) (List.length r) then S (backslashes r) else backslashes r.
Proof.
  induction r as [|d r IH]; [reflexivity|]. cbn [app backslashes List.length]. destruct (d =? backslash); [|reflexivity].
  rewrite IH. cbn. now destruct (Nat.eqb _ _).
Qed.
Lemma backslashes_le r : (backslashes r <= List.length r)%nat.
Proof. induction r as [|d r IH]; cbn; [lia|]. destruct (_ =? _); lia. Qed.
Lemma backslashes_snoc2 r : Nat.even (backslashes (r ++ [backslash; backslash])) = Nat.even (backslashes r).
Proof.
  replace (r ++ [backslash; backslash]) with ((r ++ [backslash]) ++ [backslash]) by now rewrite <- app_assoc.
  rewrite !backslashes_snoc. pose proof (backslashes_le r). rewrite app_length. cbn [List.length].
  destruct (Nat.eqb_spec (backslashes r) (List.length r)).
  - rewrite (proj2 (Nat.eqb_eq _ _)) by lia. reflexivity.
  - now rewrite (proj2 (Nat.eqb_neq _ _)) by lia.
Qed.
Lemma unescaped_escape c p : unescaped_after (backslash :: c :: p) <-> unescaped_after p.
Proof.
  unfold unescaped_after. cbn [rev]. rewrite <- app_assoc. cbn [app].
  destruct (N.eqb_spec c backslash) as [->|Hc].
  - now rewrite backslashes_snoc2.
  - now rewrite backslashes_app by assumption.
Qed.

(** ** A measure: the characters that are not escaped but might have to be *)
Definition is_reserved (c : char) : bool := existsb (fun d => c =? d) reserved.
Fixpoint measure (n : nat) (s : str) : nat :=
  match n with
  | O => O
  | S n =>
    match s with
    | [] => O
    | c :: r =>
        if c =? backslash then
          match r with
          | d :: r' => if is_reserved d then measure n r' else S (measure n r)
          | [] => 1
          end
        else (if existsb (fun d => c =? d) culprits then 1 else 0) + measure n r
    end
  end.
Lemma measure_cons n c r : measure (S n) (c :: r) =
  if c =? backslash then
    match r with
    | d :: r' => if is_reserved d then measure n r' else S (measure n r)
    | [] => 1%nat
    end
  else ((if existsb (fun d => (c =? d)%N) culprits then 1 else 0) + measure n r)%nat.
Proof. reflexivity. Qed.
Definition mu (s : str) : nat := measure (List.length s) s.
Lemma measure_enough n m s : (List.length s <= n)%nat -> (List.length s <= m)%nat -> measure n s = measure m s.
Proof.
  revert m s. induction n as [|n IH]; intros m s Hn Hm.
  - destruct s; [|cbn in Hn; lia]. now destruct m.
  - destruct m as [|m]; [destruct s; [reflexivity|cbn in Hm; lia]|].
    destruct s as [|c r]; [reflexivity|]. cbn [List.length] in *. cbn [measure].
    destruct (c =? backslash).
    + destruct r as [|d r']; [reflexivity|]. cbn [List.length] in *. destruct (is_reserved d).
      * apply IH; lia.
      * f_equal. apply IH; cbn [List.length]; lia.
    + f_equal. apply IH; lia.
Qed.
Lemma mu_plain c r : c <> backslash ->
  mu (c :: r) = ((if existsb (fun d => (c =? d)%N) culprits then 1 else 0) + mu r)%nat.
Proof. intros H. unfold mu. cbn [List.length]. rewrite measure_cons. now destruct (N.eqb_spec c backslash). Qed.
Lemma mu_escape d r : is_reserved d = true -> mu (backslash :: d :: r) = mu r.
Proof.
  intros H. unfold mu. cbn [List.length]. rewrite measure_cons. rewrite N.eqb_refl, H. apply measure_enough; cbn [List.length]; lia.
Qed.
Lemma mu_broken d r : is_reserved d = false -> mu (backslash :: d :: r) = S (mu (d :: r)).
Proof. intros H. unfold mu. cbn [List.length]. rewrite measure_cons. now rewrite N.eqb_refl, H. Qed.
Lemma is_reserved_iff c : is_reserved c = true <-> In c reserved.
Proof.
  unfold is_reserved. rewrite existsb_exists. split.
  - intros (d & Hd & E). apply N.eqb_eq in E as ->. exact Hd.
  - intros H. exists c. split; [exact H|apply N.eqb_refl].
Qed.

Lemma mu_app pre : unescaped_after pre -> forall s, mu (pre ++ s) = (mu pre + mu s)%nat.
Proof.
  remember (List.length pre) as n eqn:En. revert pre En.
  induction n as [n IH] using (well_founded_induction Wf_nat.lt_wf). intros pre -> Hu s.
  destruct pre as [|c pre]; [reflexivity|].
  destruct (N.eq_dec c backslash) as [->|Hc].
  - destruct pre as [|d pre]; [discriminate|]. cbn [app].
    destruct (is_reserved d) eqn:Ed.
    + rewrite !mu_escape by assumption. apply (IH (List.length pre)); [cbn; lia|reflexivity|].
      now apply unescaped_escape in Hu.
    + rewrite !mu_broken by assumption. cbn [Nat.add]. f_equal.
      change (d :: pre ++ s) with ((d :: pre) ++ s).
      apply (IH (List.length (d :: pre))); [cbn; lia|reflexivity|].
      apply unescaped_escape in Hu. apply unescaped_cons; [|exact Hu].
      intros ->. discriminate Ed.
  - cbn [app]. rewrite !mu_plain by assumption. rewrite (IH (List.length pre)); [lia|cbn; lia|reflexivity|].
    now apply unescaped_cons in Hu.
Qed.
Lemma mu_count s : (mu s <= reserved_count s)%nat.
Proof.
  change (reserved_count s) with (List.length (filter is_reserved s)). unfold mu. set (n := List.length s). clearbody n.
  revert s. induction n as [|n IH]; intros s; [cbn; lia|].
  destruct s as [|c r]; [cbn; lia|]. cbn [measure].
  destruct (N.eqb_spec c backslash) as [->|Hc].
  - change (filter is_reserved (backslash :: r)) with (backslash :: filter is_reserved r).
    destruct r as [|d r']; [cbn; lia|]. destruct (is_reserved d) eqn:Ed.
    + cbn [filter]. rewrite Ed. specialize (IH r'). cbn [List.length]. lia.
    + specialize (IH (d :: r')). cbn [List.length]. lia.
  - specialize (IH r). destruct (existsb (fun d => c =? d) culprits) eqn:Ec.
    + cbn [filter]. replace (is_reserved c) with true; [cbn [List.length]; lia|].
      symmetry. apply is_reserved_iff. apply existsb_exists in Ec as (d & Hd & E). apply N.eqb_eq in E as ->.
      vm_compute in Hd |- *. tauto.
    + cbn [filter]. destruct (is_reserved c); cbn [List.length]; lia.
Qed.

(** ** Following the advice *)
Lemma prefix_eq p q x y : p ++ x = q ++ y -> blen p = blen q -> p = q.
Proof.
  revert q. induction p as [|c p IH]; intros [|d q] E H; [reflexivity| | |].
  - cbn in H. unfold len_utf8 in H. destruct (d <? 128), (d <? 2048), (d <? 65536); lia.
  - cbn in H. unfold len_utf8 in H. destruct (c <? 128), (c <? 2048), (c <? 65536); lia.
  - cbn in E. injection E as -> E. f_equal. apply (IH q E). cbn in H. lia.
Qed.

Lemma advice_exists s er : addressable s -> ~ trailing_backslash s ->
  expression_parse s = RetErr er -> exists s', advice er s s'.
Proof.
  intros Hs Ht H. apply parse_err_iff in H as (e & He & ->); [|exact Hs].
  apply pointed_expression in He as (p & t & post & Hsp & E & Hp & [(q & Hq & Ha)|Hpt]).
  - exfalso. apply Ht. exists q. split; [exact Hq|now apply aligned_unescaped].
  - destruct Hpt as (u & c & v & -> & Hu & Hc & Hcul).
    exists ((p ++ u) ++ backslash :: c :: v ++ post).
    exists (span_at 0 1 (p, u ++ c :: v)), (p ++ u), c, (v ++ post).
    unfold locate_error. rewrite error_span_map, Hsp, culprit_map. cbn [option_map fst snd span_at off frag].
    split; [reflexivity|]. split.
    { destruct Hcul as [[-> _]|[[-> _]|[-> [_ [-> _]]]]]; [now left| |now left].
      vm_compute in Hc |- *. tauto. }
    split; [rewrite E, <- !app_assoc; reflexivity|]. split; [reflexivity|].
    rewrite !blen_app. cbn [blen]. assert (0 < len_utf8 c) by (unfold len_utf8; destruct (c <? 128), (c <? 2048), (c <? 65536); lia).
    repeat split; try lia. now apply aligned_unescaped, aligned_app.
Qed.

Lemma advice_decreases s er s' : addressable s -> ~ trailing_backslash s ->
  expression_parse s = RetErr er -> advice er s s' ->
  (mu s' < mu s)%nat /\ ~ trailing_backslash s' /\ List.length s' = S (List.length s).
Proof.
  intros Hs Ht H Ha. apply parse_err_iff in H as (e & He & ->); [|exact Hs].
  destruct Ha as (i & pre & c & post & Hi & Hc & E & -> & Hlo & Hhi & Hu).
  unfold locate_error in Hi, Hc. rewrite error_span_map in Hi. rewrite culprit_map in Hc.
  apply pointed_expression in He as (p & t & post' & Hsp & E' & Hp & [(q & Hq & Hqa)|Hpt]).
  { exfalso. apply Ht. exists q. split; [exact Hq|now apply aligned_unescaped]. }
  rewrite Hsp in Hi. cbn [option_map] in Hi. injection Hi as <-.
  unfold span_at in Hlo, Hhi. cbn [off frag fst snd] in Hlo, Hhi. rewrite N.add_0_l in Hlo, Hhi.
  (* what the escaped char is *)
  assert (Hcase : (In c culprits /\ c <> backslash) \/
                  (c = backslash /\ exists d r, post = d :: r /\ ~ In d reserved)).
  { destruct Hpt as (u & c' & v & -> & Hua & Hcc & [[Hcul Hn]|[[Hcul [-> [-> Hn]]]|[Hcul [-> [-> (d & -> & Hd)]]]]]).
    - rewrite Hcul in Hc. destruct Hc as [->|[]]. now left.
    - cbn [app blen] in Hhi. assert (pre = p) as ->.
      { apply (prefix_eq _ _ (c :: post) ([c'] ++ post')); [rewrite <- E; exact E'|].
        assert (len_utf8 c' = 1).
        { vm_compute in Hcc. destruct Hcc as [<-|[<-|[<-|[<-|[]]]]]; reflexivity. }
        lia. }
      rewrite E in E'. apply app_inv_head in E'. cbn in E'. injection E' as -> _. now left.
    - right. rewrite Hcul in Hc. destruct Hc as [<-|[]]. split; [reflexivity|].
      assert (Hlt : blen pre < blen p + 1 \/ blen p + 1 <= blen pre) by lia.
      destruct Hlt as [Hlt|Hge].
      + assert (pre = p) as ->.
        { eapply prefix_eq; [rewrite <- E; exact E'|]. lia. }
        rewrite E in E'. apply app_inv_head in E'. cbn in E'. injection E' as ->. eauto.
      + exfalso. cbn [app blen] in Hhi. replace (len_utf8 backslash) with 1 in Hhi by reflexivity.
        rewrite E in E'. cbn [app] in E'.
        (* [pre] is longer than [p ++ [backslash]], so it holds [d] too *)
        assert (pre = p ++ [backslash] \/ exists w, pre = p ++ [backslash; d] ++ w) as [->|[w ->]].
        { clear -E' Hge. revert p E' Hge. induction pre as [|x pre IH]; intros p E' Hge.
          - cbn in Hge. lia.
          - destruct p as [|y p]; cbn in E'.
            + injection E' as -> E'. destruct pre as [|z pre]; [now left|]. cbn in E'. injection E' as -> E'.
              right. now exists pre.
            + injection E' as -> E'. cbn in Hge. destruct (IH p E' ltac:(lia)) as [->|[w ->]]; [now left|].
              right. now exists w. }
        * rewrite <- app_assoc in E'. apply app_inv_head in E'. cbn in E'. injection E' as E1 _.
          apply Hd. rewrite <- E1. special.
        * rewrite !blen_app in Hhi. cbn [blen app] in Hhi. replace (len_utf8 backslash) with 1 in Hhi by reflexivity. lia. }
  clear Hsp E' Hp Hpt Hlo Hhi Hc. subst s. repeat split.
  - rewrite !mu_app by assumption. apply Nat.add_lt_mono_l.
    destruct Hcase as [[Hc Hn]|[-> (d & r & -> & Hd)]].
    + rewrite mu_escape by (apply is_reserved_iff; vm_compute in Hc |- *; tauto).
      rewrite mu_plain by assumption. rewrite (proj2 (existsb_exists _ _)); [cbn; lia|].
      exists c. split; [exact Hc|apply N.eqb_refl].
    + rewrite mu_escape by reflexivity. rewrite mu_broken; [lia|].
      destruct (is_reserved d) eqn:Ed; [|reflexivity]. now apply is_reserved_iff in Ed.
  - intros (q & Hq & Hqu). apply Ht.
    destruct post as [|d0 post0] using rev_ind.
    + destruct Hcase as [[_ Hn]|[-> (d & r & Hx & _)]]; [|discriminate].
      exfalso. change (pre ++ [backslash; c]) with (pre ++ [backslash] ++ [c]) in Hq.
      rewrite app_assoc in Hq. apply app_inj_tail in Hq as [_ Hq]. now apply Hn.
    + clear IHpost0.
      replace (pre ++ backslash :: c :: post0 ++ [d0]) with ((pre ++ backslash :: c :: post0) ++ [d0]) in Hq
        by (rewrite <- app_assoc; reflexivity).
      apply app_inj_tail in Hq as [<- ->].
      exists (pre ++ c :: post0). split; [rewrite <- app_assoc; reflexivity|].
      assert (Hpost : unescaped_after post0 \/ True) by now right. clear Hpost.
      destruct Hcase as [[_ Hn]|[-> (d & r & Hx & Hd)]].
      * unfold unescaped_after in *. rewrite rev_app_distr in *. cbn [rev] in *.
        rewrite <- !app_assoc in *. cbn [app] in *. rewrite backslashes_app in * by assumption. exact Hqu.
      * destruct post0 as [|d' post0]; cbn in Hx; injection Hx as <- _.
        { exfalso. apply Hd. special. }
        assert (d' <> backslash) by (intros ->; apply Hd; special).
        unfold unescaped_after in *. rewrite rev_app_distr in *. cbn [rev] in *.
        rewrite <- !app_assoc in *. cbn [app] in *. rewrite backslashes_app in * by assumption. exact Hqu.
  - rewrite !app_length. cbn [List.length]. lia.
Qed.

Notation rejects s e := (expression_parse s = RetErr e).
Lemma reserved_count_le s : (reserved_count s <= List.length s)%nat.
Proof.
  change (reserved_count s) with (List.length (filter is_reserved s)).
  induction s as [|c s IH]; [reflexivity|]. cbn [filter]. destruct (is_reserved c); cbn [List.length]; lia.
Qed.
Lemma follows_invariant n s s' : follows (fun s e => rejects s e) n s s' ->
  N.of_nat (List.length s + mu s) <= usize_max -> ~ trailing_backslash s ->
  (n + mu s' <= mu s)%nat /\ ~ trailing_backslash s' /\ List.length s' = (n + List.length s)%nat.
Proof.
  induction 1 as [s|n s s1 s2 er He Ha Hf IH]; intros Hs Ht.
  - repeat split; [lia|exact Ht].
  - assert (addressable s) by (unfold addressable; lia).
    destruct (advice_decreases s er s1) as (H1 & H2 & H3); try assumption.
    destruct IH as (H4 & H5 & H6); [lia|assumption|]. repeat split; [lia|assumption|lia].
Qed.
Theorem advice_followed n s s' : N.of_nat (2 * List.length s) <= usize_max -> ~ trailing_backslash s ->
  follows (fun s e => rejects s e) n s s' ->
  (n <= reserved_count s)%nat /\
  ((exists e, expression_parse s' = RetOk e) \/ (exists s'', follows (fun s e => rejects s e) 1 s' s'')).
Proof.
  intros Hs Ht Hf. pose proof (mu_count s). pose proof (reserved_count_le s).
  destruct (follows_invariant n s s') as (H1 & H2 & H3); [assumption|lia|assumption|].
  split; [lia|]. assert (Ha : addressable s') by (unfold addressable; lia).
  pose proof (parse_total s' Ha) as Hr. destruct (expression_parse s') as [e|er| |] eqn:E.
  - left. now exists e.
  - right. destruct (advice_exists s' er Ha H2 E) as [s'' Hs'']. exists s''. eapply follows_step; [exact E|exact Hs''|constructor].
  - destruct Hr as [[? Hr]|[? Hr]]; discriminate.
  - destruct Hr as [[? Hr]|[? Hr]]; discriminate.
Qed.
Theorem advice_leads_to_acceptance s : N.of_nat (2 * List.length s) <= usize_max -> ~ trailing_backslash s ->
  exists n s' e, follows (fun s e => rejects s e) n s s' /\ (n <= reserved_count s)%nat /\
    expression_parse s' = RetOk e.
Proof.
  intros Hs Ht. pose proof (mu_count s). pose proof (reserved_count_le s).
  assert (Hg : forall k s, (mu s < k)%nat -> N.of_nat (List.length s + mu s) <= usize_max -> ~ trailing_backslash s ->
    exists n s' e, follows (fun s e => rejects s e) n s s' /\ (n <= mu s)%nat /\ expression_parse s' = RetOk e).
  { clear s Hs Ht H H0. induction k as [|k IH]; intros s Hk Hs Ht; [lia|].
    assert (Ha : addressable s) by (unfold addressable; lia).
    pose proof (parse_total s Ha) as Hr. destruct (expression_parse s) as [e|er| |] eqn:E.
    - exists 0%nat, s, e. repeat split; [constructor|lia|exact E].
    - destruct (advice_exists s er Ha Ht E) as [s1 H1].
      destruct (advice_decreases s er s1 Ha Ht E H1) as (H2 & H3 & H4).
      destruct (IH s1) as (n & s' & e & H5 & H6 & H7); [lia|lia|assumption|].
      exists (S n), s', e. repeat split; [econstructor; eassumption|lia|assumption].
    - destruct Hr as [[? Hr]|[? Hr]]; discriminate.
    - destruct Hr as [[? Hr]|[? Hr]]; discriminate. }
  destruct (Hg (S (mu s)) s) as (n & s' & e & H1 & H2 & H3); [lia|lia|assumption|].
  exists n, s', e. repeat split; [assumption|lia|assumption].
Qed.

(** ** Texts *)
Definition unkind {I} (e : error I) : error unit := map_error (fun _ => tt) e.
Definition message (e : error unit) : str :=
  skipn 2 (display_parsing (map_error (fun _ => mkspan 0 1 [0]) e)).
Lemma display_shape e i : error_span e = Some i -> display_parsing e = frag i ++ newline ++ message (unkind e).
Proof. destruct e; intros H; try discriminate; injection H as <-; reflexivity. Qed.

Definition all_kinds : list (error unit) :=
  [NestedParameter tt; OptionalInParameter tt; UnfinishedParameter tt; NestedOptional tt;
   ParameterInOptional tt; EmptyOptional tt; AlternationInOptional tt; UnfinishedOptional tt;
   EmptyAlternation tt; OnlyOptionalInAlternation tt; UnescapedReservedCharacter tt;
   EscapedNonReservedCharacter tt; EscapedEndOfLine tt; Other tt KTag].
Definition str_eqb (s t : str) : bool := if list_eq_dec N.eq_dec s t then true else false.
Lemma str_eqb_refl s : str_eqb s s = true.
Proof. unfold str_eqb. now destruct (list_eq_dec N.eq_dec s s). Qed.
(** [t] is a suffix of [s], other than [s] itself. *)
Definition proper_suffix (t s : str) : bool :=
  existsb (fun k => str_eqb (skipn k s) t) (List.seq 1 (List.length s)).
Lemma proper_suffix_app w t : w <> [] -> proper_suffix t (w ++ t) = true.
Proof.
  intros H. apply existsb_exists. exists (List.length w). split.
  - apply in_seq. rewrite app_length. destruct w; [easy|]. cbn. lia.
  - rewrite skipn_app, skipn_all, Nat.sub_diag. apply str_eqb_refl.
Qed.
Definition representative (e : error unit) : error unit :=
  match e with Other _ _ => Other tt KTag | e => e end.
Lemma no_suffixes : forallb (fun e => forallb (fun e' =>
  negb (proper_suffix (newline ++ message e') (newline ++ message e))) all_kinds) all_kinds = true.
Proof. vm_compute. reflexivity. Qed.
Fixpoint distinct (l : list str) : bool :=
  match l with [] => true | x :: l' => negb (existsb (str_eqb x) l') && distinct l' end.
Lemma messages_distinct : distinct (map message all_kinds) = true.
Proof. vm_compute. reflexivity. Qed.
Lemma distinct_inj l x y : distinct (map message l) = true -> In x l -> In y l ->
  message x = message y -> x = y.
Proof.
  induction l as [|z l IH]; [easy|]. cbn [map distinct]. rewrite andb_true_iff, negb_true_iff.
  intros [H1 H2] Hx Hy E.
  assert (Hz : forall w, In w l -> message z <> message w).
  { intros w Hw Ew. rewrite <- not_true_iff_false in H1. apply H1, existsb_exists.
    exists (message w). split; [now apply in_map|]. rewrite Ew. apply str_eqb_refl. }
  destruct Hx as [->|Hx], Hy as [->|Hy]; [reflexivity| | |now apply IH].
  - now apply Hz in Hy.
  - symmetry in E. now apply Hz in Hx.
Qed.
Lemma representative_in {I} (e : error I) i : error_span e = Some i -> In (representative (unkind e)) all_kinds.
Proof. destruct e; intros H; try discriminate; cbn; tauto. Qed.
Lemma representative_message e : message (representative e) = message e.
Proof. destruct e; reflexivity. Qed.
Lemma representative_kind {I J} (e : error I) (e' : error J) :
  representative (unkind e) = representative (unkind e') -> same_kind e e'.
Proof. destruct e, e'; cbn; intros H; try exact H; try discriminate H; exact Logic.I. Qed.

Lemma display_kind e e' i i' : error_span e = Some i -> error_span e' = Some i' ->
  display_parsing e = display_parsing e' -> same_kind e e' /\ frag i = frag i'.
Proof.
  intros Hi Hi' H. rewrite (display_shape _ _ Hi), (display_shape _ _ Hi') in H.
  rewrite <- (representative_message (unkind e)), <- (representative_message (unkind e')) in H.
  pose proof (representative_in _ _ Hi) as Hk. pose proof (representative_in _ _ Hi') as Hk'.
  pose proof (representative_kind e e') as Hr.
  set (k := representative (unkind e)) in *. set (k' := representative (unkind e')) in *.
  assert (Hno : forall a b w, In a all_kinds -> In b all_kinds ->
    newline ++ message a = w ++ newline ++ message b -> w = []).
  { intros a b w Ha Hb E. destruct w as [|c w]; [reflexivity|]. exfalso.
    pose proof no_suffixes as Hn. rewrite forallb_forall in Hn. specialize (Hn a Ha).
    rewrite forallb_forall in Hn. specialize (Hn b Hb). rewrite E, proper_suffix_app in Hn; easy. }
  apply app_eq_app in H as (w & [[E1 E2]|[E1 E2]]).
  - apply Hno in E2 as Hw; [|assumption|assumption]. subst w. rewrite app_nil_r in E1. cbn [app] in E2.
    split; [|exact E1]. apply Hr. apply app_inv_head in E2.
    symmetry. apply (distinct_inj all_kinds); [exact messages_distinct|assumption|assumption|exact E2].
  - apply Hno in E2 as Hw; [|assumption|assumption]. subst w. rewrite app_nil_r in E1. cbn [app] in E2.
    split; [|now rewrite E1]. apply Hr. apply app_inv_head in E2.
    apply (distinct_inj all_kinds); [exact messages_distinct|assumption|assumption|exact E2].
Qed.

Lemma display_starts s er : addressable s -> expression_parse s = RetErr er ->
  exists i m, error_span er = Some i /\ occurs_at 0 1 s i /\ display_parsing er = frag i ++ [10] ++ m.
Proof.
  intros Hs H. destruct (error_occurs s er Hs H) as (i & Hi & _ & Ho).
  exists i, (message (unkind er)). repeat split; [exact Hi|exact Ho|now apply display_shape].
Qed.

Fixpoint starts (u t : str) : bool :=
  match u, t with
  | [], _ => true
  | c :: u', d :: t' => (c =? d) && starts u' t'
  | _, _ => false
  end.
Lemma starts_app u t : starts u t = true <-> exists r, t = u ++ r.
Proof.
  revert t. induction u as [|c u IH]; intros t; cbn [starts].
  - split; [now exists t|easy].
  - destruct t as [|d t]; [split; [easy|intros [r Hr]; discriminate]|].
    rewrite andb_true_iff, N.eqb_eq, IH. split.
    + intros [-> [r ->]]. now exists r.
    + intros [r Hr]. injection Hr as -> ->. split; [reflexivity|now exists r].
Qed.
Fixpoint find_text (u t : str) : bool :=
  starts u t || match t with [] => false | _ :: t' => find_text u t' end.
Lemma find_text_iff u t : find_text u t = true <-> within_text u t.
Proof.
  induction t as [|c t IH]; cbn [find_text]; rewrite orb_true_iff, starts_app.
  - split; [intros [[r Hr]|]; [now exists [], r|easy]|].
    intros (l & r & H). destruct l; [left; now exists r|discriminate].
  - rewrite IH. split.
    + intros [[r Hr]|(l & r & ->)]; [now exists [], r|now exists (c :: l), r].
    + intros (l & r & H). destruct l as [|d l]; [left; now exists r|].
      injection H as -> ->. right. now exists l, r.
Qed.
(** The part of a message below the quoted input. *)
Lemma message_quotes e i c : error_span e = Some i -> culprit e = [c] ->
  match e with EscapedEndOfLine _ => False | _ => True end ->
  exists m, display_parsing e = frag i ++ [10] ++ m /\ within_text (s_ "'\" ++ [c] ++ s_ "' to escape") m.
Proof.
  intros Hi Hc Hn. exists (message (unkind e)). split; [now apply display_shape|].
  apply find_text_iff. destruct e; try discriminate; try easy; injection Hc as <-; vm_compute; reflexivity.
Qed.
(** The second line of a message. *)
Fixpoint first_line (t : str) : str * str :=
  match t with
  | [] => ([], [])
  | c :: t' => if c =? 10 then ([], t') else let '(a, b) := first_line t' in (c :: a, b)
  end.
Lemma message_speaks e i k0 : error_span e = Some i -> In k0 (concerns e) ->
  exists m advice, display_parsing e = frag i ++ [10] ++ m ++ [10] ++ advice /\ ~ In 10 m /\
    forall k, speaks_of k m <-> In k (concerns e).
Proof.
  intros Hi Hk. set (p := first_line (message (unkind e))). exists (fst p), (snd p). split; [|split].
  - rewrite (display_shape e i Hi). do 2 f_equal. destruct e; try easy; vm_compute; reflexivity.
  - destruct e; try easy; vm_compute; intuition discriminate.
  - assert (D : forall k l, In k l <-> existsb (fun j => match j, k with
      | AParameter, AParameter | AnOptional, AnOptional | AnAlternation, AnAlternation => true | _, _ => false end) l = true).
    { intros k l. rewrite existsb_exists. split; [intros H; exists k; split; [exact H|now destruct k]|].
      intros (j & Hj & E). now destruct j, k. }
    intros k. rewrite D. destruct k; cbn [speaks_of]; rewrite <- !find_text_iff, <- orb_true_iff;
      destruct e; try easy; vm_compute; split; congruence.
Qed.
Lemma message_reserved i : exists m,
  display_parsing (UnescapedReservedCharacter i) = frag i ++ [10] ++ m /\
  within_text (s_ "use an '\' to escape it") m.
Proof.
  exists (message (UnescapedReservedCharacter tt)). split; [reflexivity|].
  apply find_text_iff. vm_compute. reflexivity.
Qed.
Lemma message_end_of_line : exists s i, addressable s /\
  expression_parse s = RetErr (EscapedEndOfLine i) /\
  ~ within_text (s_ "'\\'") (display_parsing (EscapedEndOfLine i)).
Proof.
  exists (s_ "a \"), (mkspan 2 1 (s_ "\")). split; [|split].
  - vm_compute. discriminate.
  - vm_compute. reflexivity.
  - intros H. apply find_text_iff in H. vm_compute in H. discriminate.
Qed.
(** The advice cannot be followed. *)
Lemma advice_useless : exists s er, addressable s /\ expression_parse s = RetErr er /\
  forall s', ~ advice er s s'.
Proof.
  exists (s_ "abc\"), (EscapedNonReservedCharacter (mkspan 0 1 (s_ "ab"))).
  split; [vm_compute; discriminate|]. split; [vm_compute; reflexivity|].
  intros s' (i & pre & c & post & Hi & Hc & E & _ & _ & Hhi & _).
  injection Hi as <-. cbn [off frag] in Hhi. destruct Hc as [<-|[]].
  destruct pre as [|x [|y pre]]; cbn [app] in E; [discriminate| |]; vm_compute in E.
  - discriminate.
  - injection E as <- <- E. change (blen (97 :: 98 :: pre) < 2) in Hhi. cbn [blen] in Hhi.
    change (len_utf8 97) with 1 in Hhi. change (len_utf8 98) with 1 in Hhi. Lia.lia.
Qed.
