(** Property C68, with custom parameters. Statements only. *)
From Verif Require Import ProofSizeIn ProofPrint.
(** * C68: exactly when the empty subject is matched; when any subject is; when arbitrarily long ones are; and a bound if every
    parameter has one. *)
Theorem C68_custom_nothing : forall digits spaces words to_string get, tables_ok digits spaces words -> prints_meaning to_string ->
  forall s e t r, addressable s -> expression_parse s = RetOk e -> Forall (custom_valid frag get (fun _ => True)) (parameters e) ->
  regex_with_parameters digits spaces words to_string get s = XOk t r ->
  is_match (in_ranges digits) (in_ranges spaces) (in_ranges words) r [] <-> Forall (custom_vanishes digits spaces words frag get) e.
Proof. exact custom_nothing. Qed.
Theorem C68_custom_something : forall digits spaces words to_string get, tables_ok digits spaces words -> prints_meaning to_string ->
  forall s e t r, addressable s -> expression_parse s = RetOk e -> Forall (custom_valid frag get (fun _ => True)) (parameters e) ->
  regex_with_parameters digits spaces words to_string get s = XOk t r ->
  rust_string s -> (exists d, scalar d /\ in_ranges digits d = true) -> (exists c, scalar c /\ in_ranges spaces c = false) ->
  Forall (satisfiable digits spaces words get) (parameters e) ->
  exists subject, rust_string subject /\ is_match (in_ranges digits) (in_ranges spaces) (in_ranges words) r subject.
Proof. exact custom_something. Qed.
Theorem C68_custom_infinite : forall digits spaces words to_string get, tables_ok digits spaces words -> prints_meaning to_string ->
  forall s e t r, addressable s -> expression_parse s = RetOk e -> Forall (custom_valid frag get (fun _ => True)) (parameters e) ->
  regex_with_parameters digits spaces words to_string get s = XOk t r ->
  rust_string s -> (exists d, scalar d /\ in_ranges digits d = true) -> (exists c, scalar c /\ in_ranges spaces c = false) ->
  Forall (satisfiable digits spaces words get) (parameters e) -> Exists (unbounded digits spaces words get) (parameters e) ->
  forall k, exists subject, rust_string subject /\ is_match (in_ranges digits) (in_ranges spaces) (in_ranges words) r subject /\
    (k <= List.length subject)%nat.
Proof. exact custom_long. Qed.
Theorem C68_custom_bounded : forall digits spaces words to_string get, tables_ok digits spaces words -> prints_meaning to_string ->
  forall s e t r, addressable s -> expression_parse s = RetOk e -> Forall (custom_valid frag get (fun _ => True)) (parameters e) ->
  regex_with_parameters digits spaces words to_string get s = XOk t r ->
  forall k, Forall (bounded digits spaces words get k) (parameters e) ->
  forall subject, rust_string subject -> is_match (in_ranges digits) (in_ranges spaces) (in_ranges words) r subject ->
  (List.length subject <= List.length s + k * List.length (parameters e))%nat.
Proof. exact custom_short. Qed.
Print Assumptions C68_custom_nothing. Print Assumptions C68_custom_something. Print Assumptions C68_custom_infinite.
Print Assumptions C68_custom_bounded.
(** [p] is [a?] and [q] is [b+]: [(y){p}] is for the empty subject too, for no more than seven chars (it is two), and [y{p}{q}] is for
    arbitrarily long subjects. *)
Definition ex68 : provider span := hash_map_get frag [(s_ "p", s_ "a?"); (s_ "q", s_ "b+")].
Definition ex68_parsed (s : str) : expression span := match expression_parse s with RetOk e => e | _ => [] end.
Definition ex68_built (s : str) : bool := match regex_with_parameters [(48, 57)] [(32, 32)] [(97, 122)] (show true) ex68 s with XOk _ _ => true | _ => false end.
Example C68_custom_example :
  tables_ok [(48, 57)] [(32, 32)] [(97, 122)] /\ prints_meaning (show true) /\
  ex68_built (s_ "(y){p}") = true /\ Forall (custom_valid frag ex68 (fun _ => True)) (parameters (ex68_parsed (s_ "(y){p}"))) /\
  Forall (custom_vanishes [(48, 57)] [(32, 32)] [(97, 122)] frag ex68) (ex68_parsed (s_ "(y){p}")) /\
  Forall (bounded [(48, 57)] [(32, 32)] [(97, 122)] ex68 1) (parameters (ex68_parsed (s_ "(y){p}"))) /\
  ex68_built (s_ "y{p}{q}") = true /\ Forall (custom_valid frag ex68 (fun _ => True)) (parameters (ex68_parsed (s_ "y{p}{q}"))) /\
  Forall (satisfiable [(48, 57)] [(32, 32)] [(97, 122)] ex68) (parameters (ex68_parsed (s_ "y{p}{q}"))) /\
  Exists (unbounded [(48, 57)] [(32, 32)] [(97, 122)] ex68) (parameters (ex68_parsed (s_ "y{p}{q}"))).
Proof.
  assert (Ra : regex_new (s_ "a?") = Done (RRep 0 (Some 1) true (RLit 97))) by (vm_compute; reflexivity).
  assert (Rb : regex_new (s_ "b+") = Done (RRep 1 None true (RLit 98))) by (vm_compute; reflexivity).
  assert (Wa : anywhere [(48, 57)] [(32, 32)] [(97, 122)] (RRep 0 (Some 1) true (RLit 97)) []).
  { split; [constructor|]. intros pre post. eexists. apply (rm_rep _ _ _ 0); [cbn; lia|cbn; lia|constructor]. }
  assert (Wb : forall k, anywhere [(48, 57)] [(32, 32)] [(97, 122)] (RRep 1 None true (RLit 98)) (repeat 98 (S k))).
  { intros k. split; [apply Forall_forall; intros x Hx; apply repeat_spec in Hx; subst; split; [unfold char_max; lia|lia]|].
    assert (M : forall n pre post, exists c, rms (in_ranges [(48, 57)]) (in_ranges [(32, 32)]) (in_ranges [(97, 122)]) n (RLit 98) pre (repeat 98 n) post c).
    { induction n as [|n IH]; intros pre post; [eexists; constructor|]. destruct (IH (pre ++ [98]) post) as (c & Hc). eexists.
      change (repeat 98 (S n)) with ([98] ++ repeat 98 n). econstructor; [constructor|exact Hc]. }
    intros pre post. destruct (M (S k) pre post) as (c & Hc). exists c. apply (rm_rep _ _ _ (S k)); [lia|exact I|exact Hc]. }
  split; [repeat constructor; cbn; lia|]. split; [exact show_true_faithful|].
  set (p := mkParameter (mkspan 4 1 (s_ "p")) 0). set (p' := mkParameter (mkspan 2 1 (s_ "p")) 0). set (q' := mkParameter (mkspan 5 1 (s_ "q")) 1).
  assert (E1 : ex68_parsed (s_ "(y){p}") = [ExOptional (mkOptional (mkspan 1 1 (s_ "y"))); ExParameter p]) by (vm_compute; reflexivity).
  assert (E2 : parameters (ex68_parsed (s_ "y{p}{q}")) = [p'; q']) by (vm_compute; reflexivity).
  rewrite E1, E2. unfold parameters. cbn [flat_map app].
  assert (Gp : ex68 (par_input p) = Some (s_ "a?")) by reflexivity.
  assert (Gp' : ex68 (par_input p') = Some (s_ "a?")) by reflexivity.
  assert (Gq' : ex68 (par_input q') = Some (s_ "b+")) by reflexivity.
  split; [vm_compute; reflexivity|]. split.
  { constructor; [|constructor]. unfold custom_valid. rewrite Gp. eexists. now split. }
  split.
  { constructor; [exact I|]. constructor; [|constructor]. unfold custom_vanishes. rewrite Gp. destruct Wa as [_ Wa]. destruct (Wa [] []) as (c & Hc). eexists. exists c. now split. }
  split.
  { constructor; [|constructor]. exists (s_ "a?"). eexists. split; [reflexivity|]. split; [exact Ra|]. intros pre m post c _ H.
    inversion H as [| | | | | | | | | | | |k ? ? ? ? ? ? ? ? K1 K2 M]; subst. destruct k as [|[|k]]; [inversion M; subst; cbn; lia| |lia].
    inversion M as [|? ? ? x y ? ? ? X Y]; subst. inversion X; subst. inversion Y; subst. cbn. lia. }
  split; [vm_compute; reflexivity|]. split.
  { constructor; [|constructor; [|constructor]]; unfold custom_valid; [rewrite Gp'|rewrite Gq']; eexists; now split. }
  split.
  { constructor; [|constructor; [|constructor]]; intros t Ht; [rewrite Gp' in Ht|rewrite Gq' in Ht]; injection Ht as <-.
    - exists (RRep 0 (Some 1) true (RLit 97)), []. now split.
    - exists (RRep 1 None true (RLit 98)), (repeat 98 1). split; [exact Rb|exact (Wb 0%nat)]. }
  right. left. intros t Ht. rewrite Gq' in Ht. injection Ht as <-. eexists. split; [exact Rb|]. intros k. exists (repeat 98 (S k)).
  rewrite repeat_length. split; [lia|apply Wb].
Qed.
