(** Which keys of a [HashMap] of matchers can be reached. *)
From Verif Require Export SpecMarks ProofMarks ProofParams2.

Lemma parsed_name s e p : addressable s -> expression_parse s = RetOk e -> In p (parameters e) -> content name_special (frag (par_input p)).
Proof.
  intros Hs H Hp. destruct (parsed_wf s e Hs H) as [[Hw _] _]. apply in_flat_map in Hp as (x & Hx & Hp).
  destruct x as [| |q| |]; try easy. destruct Hp as [->|[]]. rewrite Forall_forall in Hw.
  exact (Hw (ExParameter (mkParameter (frag (par_input p)) (par_id p))) (in_map (map_single frag) e (ExParameter p) Hx)).
Qed.
Lemma name_parsed k : content name_special k -> addressable (s_ "{" ++ k ++ s_ "}") ->
  expression_parse (s_ "{" ++ k ++ s_ "}") = RetOk [ExParameter (mkParameter (mkspan 1 1 k) 0)].
Proof.
  intros Hk Hs. pose (e := [ExParameter (mkParameter k 0)] : expression str).
  assert (Hw : wf e).
  { split; [repeat constructor; exact Hk|]. split; [|reflexivity]. intros l x y r E. destruct l as [|? [|]]; discriminate E. }
  assert (Hsrc : source e = s_ "{" ++ k ++ s_ "}") by (unfold source; cbn [e map List.concat src_single par_input]; now rewrite app_nil_r).
  rewrite <- Hsrc in *. rewrite (round_trip e Hw Hs). reflexivity.
Qed.
Lemma reachable k : addressable (s_ "{" ++ k ++ s_ "}") ->
  content name_special k <-> exists s e p, addressable s /\ expression_parse s = RetOk e /\ In p (parameters e) /\ frag (par_input p) = k.
Proof.
  intros Ha. split.
  - intros Hk. exists (s_ "{" ++ k ++ s_ "}"). eexists. eexists. split; [exact Ha|]. split; [now apply name_parsed|]. split; [now left|reflexivity].
  - intros (s & e & p & Hs & H & Hp & <-). eapply parsed_name; eassumption.
Qed.
Lemma get_skip {I} (f : I -> str) m1 k v m2 i : f i <> k -> hash_map_get f (m1 ++ (k, v) :: m2) i = hash_map_get f (m1 ++ m2) i.
Proof.
  intros Hn. unfold hash_map_get. induction m1 as [|[k' v'] m1 IH]; cbn [app].
  - destruct (chars_eq k (f i)) eqn:E; [|reflexivity]. unfold chars_eq in E. apply str_eqb_eq in E. now symmetry in E.
  - destruct (chars_eq k' (f i)); [reflexivity|apply IH].
Qed.
Lemma get_filter {I} (f : I -> str) (keep : str -> bool) m i : keep (f i) = true ->
  hash_map_get f (filter (fun kv => keep (fst kv)) m) i = hash_map_get f m i.
Proof.
  intros Hk. unfold hash_map_get. induction m as [|[k v] m IH]; [reflexivity|]. cbn [filter fst].
  destruct (chars_eq k (f i)) eqn:E.
  - unfold chars_eq in E. apply str_eqb_eq in E. subst k. rewrite Hk. unfold chars_eq. now rewrite (proj2 (str_eqb_eq _ _) eq_refl).
  - destruct (keep k); [rewrite E|]; exact IH.
Qed.
Section Keys.
  Context (digits spaces words : ranges) (to_string : hir -> str).
  Notation whole m := (regex_with_parameters digits spaces words to_string (hash_map_get frag m)).
  Lemma dead_key m1 k v m2 s : addressable s -> ~ content name_special k -> whole (m1 ++ (k, v) :: m2) s = whole (m1 ++ m2) s.
  Proof.
    intros Hs Hk. apply whole_only_used. intros e p H Hp. apply get_skip. intros <-. apply Hk. eapply parsed_name; eassumption.
  Qed.
  Definition used (s : str) (k : str) : bool := if in_dec (list_eq_dec N.eq_dec) k (map frag (between (c_ "{") (c_ "}") s)) then true else false.
  Lemma used_keys m s : addressable s -> whole m s = whole (filter (fun kv => used s (fst kv)) m) s.
  Proof.
    intros Hs. apply whole_only_used. intros e p H Hp. symmetry. apply get_filter. unfold used.
    destruct (in_dec _ _ _) as [|Hn]; [reflexivity|]. exfalso. apply Hn. rewrite <- (parsed_braces s e Hs H). apply in_map, in_map, Hp.
  Qed.
  (** A key that can be reached matters: for some input, without it there is no regex. *)
  Lemma live_key k v : addressable (s_ "{" ++ k ++ s_ "}") -> content name_special k -> ~ built_in k ->
    whole [] (s_ "{" ++ k ++ s_ "}") = XExpansion (NotFound (mkspan 1 1 k)) /\
    whole [(k, v)] (s_ "{" ++ k ++ s_ "}") <> XExpansion (NotFound (mkspan 1 1 k)).
  Proof.
    intros Ha Hk Hb. pose proof (name_parsed k Hk Ha) as H. split.
    - apply whole_errors. exists [], (mkParameter (mkspan 1 1 k) 0), []. split; [exact H|]. split; [constructor|]. cbn. auto.
    - rewrite whole_errors. intros (e1 & p & e2 & H' & _ & Hp). rewrite H in H'. injection H' as H'.
      destruct e1 as [|x [|]]; [|discriminate H'|discriminate H']. injection H' as <- <-. cbn [par_input frag hash_map_get] in Hp.
      unfold chars_eq in Hp. rewrite (proj2 (str_eqb_eq _ _) eq_refl) in Hp. destruct Hp as (_ & _ & [=]).
  Qed.
End Keys.
