(** The size limit of regexes. *)
From Verif Require Export SpecLimit ProofAutomaton7 ProofExpand4.
Require Import Lia PeanoNat.

Section Limit.
  Context (measure : re -> nat) (limit : nat) (digits spaces words : ranges).
  Notation compiled := (compiled digits spaces words).
  Notation sized := (under_limit measure limit digits spaces words).
  Lemma sized_by expand s : regex_by_new (sized_new measure limit digits spaces words) expand s = sized (regex_by expand s).
  Proof.
    unfold regex_by_new, regex_by, sized_new. destruct (expression_parse s) as [e|e| |]; try reflexivity.
    destruct (collect_result (expand e)) as [t|[i|i re|]]; try reflexivity. destruct (regex_new t) as [r| |]; try reflexivity.
    cbn [obind under_limit]. now destruct (Nat.leb _ _).
  Qed.
  Lemma sized_exact s : sized_regex measure limit digits spaces words s = sized (expression_regex s).
  Proof. apply sized_by. Qed.
  Lemma sized_exact_custom to_string get s : sized_regex_with_parameters measure limit digits spaces words to_string get s =
    sized (regex_with_parameters digits spaces words to_string get s).
  Proof. apply sized_by. Qed.
  Context (Htab : tables_ok digits spaces words) (k : nat) (Hk : counts_states digits spaces words k measure).
  Lemma sized_fits s : addressable s -> (k * (6 * List.length s + 5) <= limit)%nat ->
    sized_regex measure limit digits spaces words s = expression_regex s.
  Proof.
    intros Hs Hl. rewrite sized_exact. destruct (expression_regex s) as [t r| | | | | | ] eqn:E; try reflexivity. cbn [under_limit].
    pose proof (expression_states digits spaces words Htab s t r Hs E) as H. destruct (Hk (compiled r)) as [_ H2].
    replace (Nat.leb _ _) with true; [reflexivity|]. symmetry. apply Nat.leb_le.
    etransitivity; [exact H2|]. etransitivity; [apply Nat.mul_le_mono_l, H|exact Hl].
  Qed.
  (** The automaton of a literal text. *)
  Lemma literal_branches x t i : branches digits spaces words (mk_cat (map RLit (x :: t) ++ [RLook LEnd])) i = ([HCat [HLit (x :: t); HLook LEnd]], i).
  Proof.
    revert x. induction t as [|y t IH]; intros x; [reflexivity|].
    change (mk_cat (map RLit (x :: y :: t) ++ [RLook LEnd])) with (RCat (RLit x) (mk_cat (map RLit (y :: t) ++ [RLook LEnd]))).
    cbn [branches]. rewrite (IH y). reflexivity.
  Qed.
  Lemma literal_compiled x t : compiled (mk_cat (RLook LStart :: map RLit (x :: t) ++ [RLook LEnd])) =
    RCat (RLook LStart) (RCat (mk_cat (map RLit (x :: t))) (RLook LEnd)).
  Proof.
    unfold Compiled.compiled, translate.
    change (mk_cat (RLook LStart :: map RLit (x :: t) ++ [RLook LEnd])) with (RCat (RLook LStart) (mk_cat (map RLit (x :: t) ++ [RLook LEnd]))).
    cbn [branches]. rewrite literal_branches. reflexivity.
  Qed.
  Lemma literal_code digit space word t : forall g k n, List.length (fst (compile digit space word (mk_cat (map RLit t)) g k n)) = List.length t.
  Proof.
    induction t as [|x [|y t] IH]; intros g k0 n; [reflexivity|reflexivity|].
    change (mk_cat (map RLit (x :: y :: t))) with (RCat (RLit x) (mk_cat (map RLit (y :: t)))). cbn [compile]. specialize (IH (g + 0)%nat k0 n).
    cbn [groups List.length]. destruct (compile _ _ _ (mk_cat (map RLit (y :: t))) _ _ _) as [c e]. cbn [fst] in *. rewrite app_length. cbn [List.length] in *. lia.
  Qed.
  Lemma literal_program digit space word t :
    List.length (program digit space word (RCat (RLook LStart) (RCat (mk_cat (map RLit t)) (RLook LEnd)))) = (List.length t + 5)%nat.
  Proof.
    unfold program. cbn [compile groups List.length app fst snd]. 
    pose proof (fun g k n => literal_code digit space word t g k n) as H.
    match goal with |- context [compile digit space word (mk_cat (map RLit t)) ?g ?k ?n] => specialize (H g k n); destruct (compile digit space word (mk_cat (map RLit t)) g k n) as [c e] end.
    cbn [fst] in *. rewrite ?app_length. cbn [List.length]. rewrite ?app_length. cbn [List.length]. lia.
  Qed.
  Lemma literal_result t : t <> [] -> addressable (escaped t) -> exists u, expression_regex (escaped t) = XOk u (mk_cat (RLook LStart :: map RLit t ++ [RLook LEnd])).
  Proof.
    intros Ht Ha. destruct (literal_text t Ht Ha) as [Hp _].
    destruct (regex_total (escaped t) Ha) as [(e & E & _)|[(e & E & _ & R)|(e1 & p & e2 & E & _ & _ & _)]].
    - congruence.
    - assert (e = [ExText (mkspan 0 1 (escaped t))]) as -> by congruence. rewrite R. eexists. f_equal. unfold re_of, re_by. cbn [flat_map re_single].
      unfold re_text. cbn [frag]. now rewrite unescape_escaped, app_nil_r.
    - rewrite Hp in E. injection E as E. destruct e1 as [|? [|]]; discriminate.
  Qed.
  Lemma literal_states t : t <> [] -> addressable (escaped t) -> exists u r, expression_regex (escaped t) = XOk u r /\
    List.length (program (in_ranges digits) (in_ranges spaces) (in_ranges words) (compiled r)) = (List.length t + 5)%nat.
  Proof.
    intros Ht Ha. destruct (literal_result t Ht Ha) as [u E]. eexists _, _. split; [exact E|]. destruct t as [|x t]; [congruence|].
    rewrite literal_compiled. apply literal_program.
  Qed.
  Lemma literal_sized t : t <> [] -> addressable (escaped t) -> (limit < List.length t + 5)%nat ->
    sized_regex measure limit digits spaces words (escaped t) = XRegex.
  Proof.
    intros Ht Ha Hl. rewrite sized_exact. destruct (literal_states t Ht Ha) as (u & r & E & H). rewrite E. cbn [under_limit].
    destruct (Hk (compiled r)) as [H1 _]. rewrite H in H1. replace (Nat.leb _ _) with false; [reflexivity|]. symmetry. apply Nat.leb_gt. lia.
  Qed.
  Lemma never_enough : N.of_nat limit < usize_max ->
    exists s t r, addressable s /\ expression_regex s = XOk t r /\ sized_regex measure limit digits spaces words s = XRegex.
  Proof.
    intros Hl. set (t := List.repeat (c_ "a") (S limit)).
    assert (E : escaped t = t).
    { unfold t. induction (S limit) as [|n IH]; [reflexivity|]. cbn [List.repeat]. unfold escaped in *. cbn [flat_map]. rewrite IH. reflexivity. }
    assert (Hn : List.length t = S limit) by apply repeat_length.
    assert (Ha : addressable (escaped t)) by (rewrite E; unfold addressable; rewrite Hn; lia).
    assert (Ht : t <> []) by discriminate.
    destruct (literal_result t Ht Ha) as [u R]. exists (escaped t), u. eexists. split; [exact Ha|]. split; [exact R|]. apply literal_sized; try assumption. lia.
  Qed.
End Limit.
