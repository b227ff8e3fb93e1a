(** The expansion once more, as the lazy iterators the code builds: src/expand/mod.rs:185-466 and
    src/expand/parameters.rs:98-293, with the state of every adaptor. Expand.v and Params.v have lists in
    their place. The adaptors are the standard library's and those of the [either] crate (from memory);
    the crate's own are in Iter.v. [I::iter_elements().map(AsChar::as_char)] is the list [elements i];
    [str::Chars] and [vec::IntoIter] are lists. *)
From Verif Require Export Params.

(** ** Adaptors *)
(** [iter::once]. Called at src/expand/mod.rs:206,208,291,298,450. *)
Definition once_next {A} : iter (option A) A := fun o => (o, None).
(** [iter::Map]. Called at src/expand/mod.rs:248,296,346,379. *)
Definition map_next {St A B} (f : A -> B) (next : iter St A) : iter St B := fun s =>
  let '(x, s') := next s in (option_map f x, s').
(** [and_then_or_clear] of the standard library: an iterator that has finished is dropped. Used by [Chain] and
    [FlatMap], src/expand/mod.rs:207. *)
Definition or_clear {St A} (next : iter St A) : iter (option St) A := fun o =>
  match o with
  | None => (None, None)
  | Some s =>
      match next s with
      | (Some x, s') => (Some x, Some s')
      | (None, _) => (None, None)
      end
  end.
(** [iter::Chain]: both sides; the first is dropped when it has finished. Called at
    src/expand/mod.rs:207-208,291,297-298,377-378. *)
Definition chain_next {S1 S2 A} (n1 : iter S1 A) (n2 : iter S2 A) : iter (option S1 * option S2) A := fun '(a, b) =>
  match or_clear n1 a with
  | (Some x, a') => (Some x, (a', b))
  | (None, a') =>
      match b with
      | None => (None, (a', None))
      | Some t => let '(x, t') := n2 t in (x, (a', Some t'))
      end
  end.
(** [Iterator::chain], called at src/expand/mod.rs:207-208,291,297-298,377-378. *)
Definition chain {S1 S2} (a : S1) (b : S2) : option S1 * option S2 := (Some a, Some b).
(** [either::Either]. Made at src/expand/mod.rs:244-249,344-347,417-450. *)
Definition either_next {S1 S2 A} (n1 : iter S1 A) (n2 : iter S2 A) : iter (S1 + S2) A := fun s =>
  match s with
  | inl a => let '(x, a') := n1 a in (x, inl a')
  | inr b => let '(x, b') := n2 b in (x, inr b')
  end.
(** [iter::Repeat] and [iter::Zip]. Called at src/expand/parameters.rs:117. *)
Definition repeat_next {A} : iter A A := fun x => (Some x, x).
(** [iter::Zip], called at src/expand/parameters.rs:117. *)
Definition zip_next {S1 S2 A B} (n1 : iter S1 A) (n2 : iter S2 B) : iter (S1 * S2) (A * B) := fun '(a, b) =>
  match n1 a with
  | (None, a') => (None, (a', b))
  | (Some x, a') =>
      match n2 b with
      | (None, b') => (None, (a', b'))
      | (Some y, b') => (Some (x, y), (a', b'))
      end
  end.
(** [iter::FlatMap]: the outer iterator ([Fuse]d), the inner iterator being run, and the one at the back,
    which only [next_back] sets. [None] when [fuel] turns of the loop are not enough. Made at
    src/expand/mod.rs:207,290,297. *)
Record flat_mapped (S1 S2 : Type) := mkFlat { fm_iter : option S1; fm_front : option S2; fm_back : option S2 }.
Arguments mkFlat {S1 S2}. Arguments fm_iter {S1 S2}. Arguments fm_front {S1 S2}. Arguments fm_back {S1 S2}.
(** [Iterator::flat_map], called at src/expand/mod.rs:207,290,297. *)
Definition flat_map_new {S1 S2} (s : S1) : flat_mapped S1 S2 := mkFlat (Some s) None None.
(** [FlatMap::next], of the iterators made at src/expand/mod.rs:207,290,297. *)
Fixpoint flat_map_loop {S1 S2 A B} (outer : iter S1 A) (f : A -> S2) (inner : iter S2 B) (fuel : nat)
    (s : flat_mapped S1 S2) : option (option B * flat_mapped S1 S2) :=
  match fuel with
  | O => None
  | S fuel' =>
      match or_clear inner (fm_front s) with
      | (Some x, u) => Some (Some x, mkFlat (fm_iter s) u (fm_back s))
      | (None, u) =>
          match or_clear outer (fm_iter s) with
          | (None, o) => let '(x, v) := or_clear inner (fm_back s) in Some (x, mkFlat o u v)
          | (Some a, o) => flat_map_loop outer f inner fuel' (mkFlat o (Some (f a)) (fm_back s))
          end
      end
  end.
(** [size]: at least as many items as the outer iterator has left; so many turns are enough (proved). Of the
    iterators made at src/expand/mod.rs:207,290,297. *)
Definition flat_map_next {S1 S2 A B} (outer : iter S1 A) (size : S1 -> nat) (f : A -> S2) (inner : iter S2 B)
    : iter (flat_mapped S1 S2) B := fun s =>
  match flat_map_loop outer f inner (2 + match fm_iter s with Some o => size o | None => 0 end) s with
  | Some r => r
  | None => (None, s)
  end.

(** ** src/expand/mod.rs *)
Section Expand.
  Context {I : Type} (elements : I -> str).
  (** src/expand/mod.rs:240,284 [ok]. *)
  Definition ok_char : char -> item I := IOk.

  (** src/expand/mod.rs:247-249, 345-347 *)
  Definition text_iter := escaper str.
  (** src/expand/mod.rs:248,346. *)
  Definition text_next : iter text_iter (item I) := map_next ok_char (escape_next list_next).
  (** src/expand/mod.rs:248,346. *)
  Definition text_into (t : I) : text_iter := escape_new (elements t).

  (** src/expand/mod.rs:386-397 [OptionalIter] and :372-380 *)
  Definition optional_iter := (option (option str * option (escaper str)) * option str)%type.
  (** src/expand/mod.rs:386-397 [OptionalIter]. *)
  Definition optional_next : iter optional_iter (item I) :=
    map_next ok_char (chain_next (chain_next list_next (escape_next list_next)) list_next).
  (** src/expand/mod.rs:372-380. *)
  Definition optional_into (o : optional I) : optional_iter :=
    chain (chain (s_ "(?:") (escape_new (elements (opt_input o)))) (s_ ")?").

  (** src/expand/mod.rs:355-363 [AlternativeIter] and :338-349 *)
  Definition alternative_iter := (optional_iter + text_iter)%type.
  (** src/expand/mod.rs:355-363 [AlternativeIter]. *)
  Definition alternative_next : iter alternative_iter (item I) := either_next optional_next text_next.
  (** src/expand/mod.rs:338-349. *)
  Definition alternative_into (a : alternative I) : alternative_iter :=
    match a with
    | AltOptional o => inl (optional_into o)
    | AltText t => inr (text_into t)
    end.

  (** src/expand/mod.rs:322-329 [AlternationIterInner] and :285-292 *)
  Definition single_alternation_iter :=
    (option (flat_mapped (single_alternation I) alternative_iter) * option (option (item I)))%type.
  (** src/expand/mod.rs:322-329 [AlternationIterInner]. *)
  Definition single_alternation_next : iter single_alternation_iter (item I) :=
    chain_next (flat_map_next list_next (@List.length _) alternative_into alternative_next) once_next.
  (** src/expand/mod.rs:285-292. *)
  Definition single_alternation_into (b : single_alternation I) : single_alternation_iter :=
    chain (flat_map_new b) (Some (IOk (c_ "|"))).
  (** src/expand/mod.rs:305-317 [AlternationIter] and :294-299 *)
  Definition alternation_iter :=
    (option (option str * option (peekable (flat_mapped (alternation I) single_alternation_iter) (item I)))
     * option (option (item I)))%type.
  (** src/expand/mod.rs:305-317 [AlternationIter]. *)
  Definition alternation_next : iter alternation_iter (item I) :=
    chain_next
      (chain_next (map_next ok_char list_next)
         (skip_last_next (flat_map_next list_next (@List.length _) single_alternation_into single_alternation_next)))
      once_next.
  (** src/expand/mod.rs:294-298. *)
  Definition alternation_into (a : alternation I) : alternation_iter :=
    chain (chain (s_ "(?:") (skip_last_new (flat_map_new a))) (Some (IOk (c_ ")"))).

  (** src/expand/mod.rs:458-467 [ParameterIter] and :412-452 *)
  Definition parameter_iter := ((str + owned_chars) + option (item I))%type.
  (** src/expand/mod.rs:458-467 [ParameterIter]. *)
  Definition parameter_next : iter parameter_iter (item I) :=
    either_next (either_next (map_next ok_char list_next) (map_next ok_char owned_chars_next)) once_next.
  (** src/expand/mod.rs:412-451. *)
  Definition parameter_into (p : parameter I) : parameter_iter :=
    let eq := fun (i : I) (t : str) => chars_eq (elements i) t in
    if eq (par_input p) (s_ "int") then inl (inl int_regex)
    else if eq (par_input p) (s_ "float") then inl (inl float_regex)
    else if eq (par_input p) (s_ "word") then inl (inl word_regex)
    else if eq (par_input p) (s_ "string") then inl (inr (owned_chars_new (string_regex (par_id p))))
    else if eq (par_input p) (s_ "") then inl (inl anonymous_regex)
    else inr (Some (IErr (NotFound (par_input p)))).

  (** src/expand/mod.rs:257-274 [SingleExpressionIter] and :234-251 *)
  Definition single_expression_iter := (alternation_iter + (optional_iter + (parameter_iter + text_iter)))%type.
  (** src/expand/mod.rs:257-274 [SingleExpressionIter]. *)
  Definition single_expression_next : iter single_expression_iter (item I) :=
    either_next alternation_next (either_next optional_next (either_next parameter_next text_next)).
  (** src/expand/mod.rs:243-250. *)
  Definition single_expression_into (x : single_expression I) : single_expression_iter :=
    match x with
    | ExAlternation a => inl (alternation_into a)
    | ExOptional o => inr (inl (optional_into o))
    | ExParameter p => inr (inr (inl (parameter_into p)))
    | ExText t | ExWhitespaces t => inr (inr (inr (text_into t)))
    end.

  (** src/expand/mod.rs:215-228 [ExpressionIter] and :202-209 *)
  Definition expression_iter :=
    (option (option (option (item I)) * option (flat_mapped (expression I) single_expression_iter))
     * option (option (item I)))%type.
  (** src/expand/mod.rs:215-228 [ExpressionIter]. *)
  Definition expression_next : iter expression_iter (item I) :=
    chain_next
      (chain_next once_next
         (flat_map_next list_next (@List.length _) single_expression_into single_expression_next))
      once_next.
  (** src/expand/mod.rs:206-208. *)
  Definition expression_into (e : expression I) : expression_iter :=
    chain (chain (Some (IOk (c_ "^"))) (flat_map_new e)) (Some (IOk (c_ "$"))).

  (** ** src/expand/parameters.rs *)
  Section Custom.
    Context (digits spaces words : ranges) (to_string : hir -> str).

    (** src/expand/parameters.rs:260-293 [WithParsIter] and :187-254; [elements] of a value are its
        chars. *)
    Definition custom_iter :=
      (option (item I) +
       (parameter_iter +
        ((option (option str * option owned_chars) * option (option (item I))) +
         (option (option (option (item I)) * option str) * option (option (item I))))))%type.
    (** src/expand/parameters.rs:260-293 [WithParsIter]. *)
    Definition custom_next : iter custom_iter (item I) :=
      either_next once_next
        (either_next parameter_next
           (either_next
              (chain_next (chain_next (map_next ok_char list_next) (map_next ok_char owned_chars_next)) once_next)
              (chain_next (chain_next once_next (map_next ok_char list_next)) once_next))).
    (** src/expand/parameters.rs:188-254. *)
    Definition custom_into (get : provider I) (p : parameter I) : custom_iter :=
      match get (par_input p) with
      | None => inr (inl (parameter_into p))
      | Some v =>
          let plain := inr (inr (inr (chain (chain (Some (IOk (c_ "("))) v) (Some (IOk (c_ ")")))))) in
          if contains v (c_ "(") then
            match regex_new v with
            | Done r =>
                let h := translate digits spaces words r in
                if has_capture_groups h
                then inr (inr (inl (chain (chain (s_ "(?:")
                       (owned_chars_new (to_string (rename_capture_groups h (par_id p))))) (Some (IOk (c_ ")"))))))
                else plain
            | Invalid => inl (Some (IErr (RenameRegexGroup (par_input p) v)))
            | Unsupported => inl (Some (IErr Unmodelled))
            end
          else plain
      end.

    (** src/expand/parameters.rs:174-177 [SingleExprWithParsIter] and :156-167; the provider is carried
        along. *)
    Definition single_custom_iter := (custom_iter + single_expression_iter)%type.
    (** src/expand/parameters.rs:174-177 [SingleExprWithParsIter]. *)
    Definition single_custom_next : iter single_custom_iter (item I) := either_next custom_next single_expression_next.
    (** src/expand/parameters.rs:156-167. *)
    Definition single_custom_into (get : provider I) (x : single_expression I) : single_custom_iter :=
      match x with
      | ExParameter p => inl (custom_into get p)
      | _ => inr (single_expression_into x)
      end.

    (** src/expand/parameters.rs:128-145 [ExpressionWithParsIter] and :107-122; [WithCustom] is
        a pair, and [map(add_pars)] nothing. *)
    Definition expression_custom_iter :=
      (option (option (option (item I)) *
               option (flat_mapped (expression I * provider I) single_custom_iter)) * option (option (item I)))%type.
    (** src/expand/parameters.rs:128-145 [ExpressionWithParsIter]. *)
    Definition expression_custom_next : iter expression_custom_iter (item I) :=
      chain_next
        (chain_next once_next
           (flat_map_next (zip_next list_next repeat_next) (fun s => List.length (fst s))
              (fun '(x, get) => single_custom_into get x) single_custom_next))
        once_next.
    (** src/expand/parameters.rs:107-122. *)
    Definition expression_custom_into (get : provider I) (e : expression I) : expression_custom_iter :=
      chain (chain (Some (IOk (c_ "^"))) (flat_map_new (e, get))) (Some (IOk (c_ "$"))).
  End Custom.
End Expand.

(** [collect::<Result<String, _>>()]: calls [next] until the first error or the end; also counts the calls.
    [None]: not within [fuel] calls. src/expand/mod.rs:71,116. *)
Fixpoint try_collect {St I} (next : iter St (item I)) (fuel : nat) (s : St) : option ((str + param_error I) * nat) :=
  match fuel with
  | O => None
  | S fuel' =>
      match next s with
      | (None, _) => Some (inl [], 1%nat)
      | (Some (IErr e), _) => Some (inr e, 1%nat)
      | (Some (IOk c), s') =>
          match try_collect next fuel' s' with
          | Some (inl t, n) => Some (inl (c :: t), S n)
          | Some (inr e, n) => Some (inr e, S n)
          | None => None
          end
      end
  end.

(** ** The cost of [OwnedChars::next] *)
(** [str::Chars::nth] (the default [Iterator::nth]): [n] chars are skipped one by one. Also counts the calls
    of [Chars::next]. Called at src/expand/mod.rs:533. *)
Fixpoint nth_calls (s : str) (n : nat) : option char * nat :=
  match s, n with
  | [], _ => (None, 1)
  | c :: _, O => (Some c, 1)
  | _ :: s', S n' => let '(x, k) := nth_calls s' n' in (x, S k)
  end%nat.
(** src/expand/mod.rs:532-536 [OwnedChars::next], with the calls of [Chars::next] counted. *)
Definition owned_chars_next_calls (s : owned_chars) : (option char * owned_chars) * nat :=
  let '(x, k) := nth_calls (oc_str s) (oc_cur s) in
  (match x with
   | None => (None, s)
   | Some c => (Some c, mkOwnedChars (oc_str s) (S (oc_cur s)))
   end, k).
(** Collecting it, to the end. As at src/expand/mod.rs:71,116. *)
Fixpoint owned_collect_calls (fuel : nat) (s : owned_chars) : option (str * nat) :=
  match fuel with
  | O => None
  | S fuel' =>
      match owned_chars_next_calls s with
      | ((None, _), k) => Some ([], k)
      | ((Some c, s'), k) =>
          match owned_collect_calls fuel' s' with
          | Some (t, n) => Some (c :: t, k + n)%nat
          | None => None
          end
      end
  end.
