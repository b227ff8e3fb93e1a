(** Property C75 (the names a [HashMap] of matchers is asked for). Statements only. A parameter's name is looked up as it is
    written, escapes and all. *)
From Verif Require Import ProofKeys.

(** * C75: a key can be reached iff it could stand between braces; other entries do nothing, ever. *)
Theorem C75_reachable : forall k, addressable (s_ "{" ++ k ++ s_ "}") ->
  content name_special k <->
  exists s e p, addressable s /\ expression_parse s = RetOk e /\ In p (parameters e) /\ frag (par_input p) = k.
Proof. exact reachable. Qed.
Theorem C75_dead : forall digits spaces words to_string m1 k v m2 s, addressable s -> ~ content name_special k ->
  regex_with_parameters digits spaces words to_string (hash_map_get frag (m1 ++ (k, v) :: m2)) s =
  regex_with_parameters digits spaces words to_string (hash_map_get frag (m1 ++ m2)) s.
Proof. exact dead_key. Qed.
Theorem C75_live : forall digits spaces words to_string k v, addressable (s_ "{" ++ k ++ s_ "}") ->
  content name_special k -> ~ built_in k ->
  regex_with_parameters digits spaces words to_string (hash_map_get frag []) (s_ "{" ++ k ++ s_ "}") =
    XExpansion (NotFound (mkspan 1 1 k)) /\
  regex_with_parameters digits spaces words to_string (hash_map_get frag [(k, v)]) (s_ "{" ++ k ++ s_ "}") <>
    XExpansion (NotFound (mkspan 1 1 k)).
Proof. exact live_key. Qed.
(** Of all entries only those matter whose key stands in the text between unescaped braces. *)
Theorem C75_used : forall digits spaces words to_string m s, addressable s ->
  regex_with_parameters digits spaces words to_string (hash_map_get frag m) s =
  regex_with_parameters digits spaces words to_string (hash_map_get frag
    (filter (fun kv => if in_dec (list_eq_dec N.eq_dec) (fst kv) (map frag (between (c_ "{") (c_ "}") s)) then true else false) m)) s.
Proof. exact used_keys. Qed.
Print Assumptions C75_reachable. Print Assumptions C75_dead. Print Assumptions C75_live. Print Assumptions C75_used.
(** The type [a/b] can be written [{a\/b}] only, and is found under the key [a\/b] only. *)
Example C75_example : ~ content name_special (s_ "a/b") /\ content name_special (s_ "a\/b") /\ ~ built_in (s_ "a\/b") /\
  (forall digits spaces words to_string,
    regex_with_parameters digits spaces words to_string (hash_map_get frag [(s_ "a/b", s_ "x")]) (s_ "{a\/b}") =
      XExpansion (NotFound (mkspan 1 1 (s_ "a\/b"))) /\
    exists t r, regex_with_parameters digits spaces words to_string (hash_map_get frag [(s_ "a\/b", s_ "x")]) (s_ "{a\/b}") = XOk t r).
Proof.
  split; [|split; [|split]].
  - intros H. inversion_clear H as [|? ? _ H'|]. inversion_clear H' as [|? ? Hn _|]. apply Hn. vm_compute. auto 10.
  - apply content_plain; [vm_compute; intuition discriminate|]. apply content_escape; [vm_compute; auto 10|].
    apply content_plain; [vm_compute; intuition discriminate|constructor].
  - vm_compute. intuition discriminate.
  - intros. split; [vm_compute; reflexivity|]. do 2 eexists. vm_compute. reflexivity.
Qed.
Example C75_example_used : map frag (between (c_ "{") (c_ "}") (s_ "{int} \{b\} {c}")) = [s_ "int"; s_ "c"].
Proof. vm_compute. reflexivity. Qed.
