(** The iterators of Lazy.v with the calls counted: every call of [next] or [peek] of any iterator in the
    nest, the standard library's included, is one step, and so is every char [str::Chars::nth] passes and
    every call [Iterator::eq] makes in comparing a name. Not counted: what happens between the calls
    (moves, [should_be_escaped], the [format!] of [{string}]), growing the [String], and, for custom
    parameters, looking up, searching, parsing and printing the matcher. *)
From Verif Require Export Lazy.
Local Open Scope nat_scope.

(** What [next] returns, and the steps it took. The [next] of src/expand/mod.rs:503,532,576 and of the
    standard library. *)
Definition counted (St A : Type) : Type := St -> (option A * St) * nat.

(** ** The standard library's, as in Lazy.v and Iter.v *)
(** [vec::IntoIter], [str::Chars]. As at src/expand/mod.rs:207,294. *)
Definition list_steps {A} : counted (list A) A := fun l => (list_next l, 1).
(** [iter::once]. src/expand/mod.rs:206. *)
Definition once_steps {A} : counted (option A) A := fun o => (once_next o, 1).
(** [iter::Map]. src/expand/mod.rs:248. *)
Definition map_steps {St A B} (f : A -> B) (next : counted St A) : counted St B := fun s =>
  let '((x, s'), n) := next s in ((option_map f x, s'), S n).
(** [and_then_or_clear]: no call of its own. In [Chain] and [FlatMap], src/expand/mod.rs:207. *)
Definition or_clear_steps {St A} (next : counted St A) : counted (option St) A := fun o =>
  match o with
  | None => ((None, None), 0)
  | Some s =>
      match next s with
      | ((Some x, s'), n) => ((Some x, Some s'), n)
      | ((None, _), n) => ((None, None), n)
      end
  end.
(** [iter::Chain]. src/expand/mod.rs:207. *)
Definition chain_steps {S1 S2 A} (n1 : counted S1 A) (n2 : counted S2 A) : counted (option S1 * option S2) A :=
  fun '(a, b) =>
  match or_clear_steps n1 a with
  | ((Some x, a'), n) => ((Some x, (a', b)), S n)
  | ((None, a'), n) =>
      match b with
      | None => ((None, (a', None)), S n)
      | Some t => let '((x, t'), m) := n2 t in ((x, (a', Some t')), S (n + m))
      end
  end.
(** [either::Either]. src/expand/mod.rs:244-249. *)
Definition either_steps {S1 S2 A} (n1 : counted S1 A) (n2 : counted S2 A) : counted (S1 + S2) A := fun s =>
  match s with
  | inl a => let '((x, a'), n) := n1 a in ((x, inl a'), S n)
  | inr b => let '((x, b'), n) := n2 b in ((x, inr b'), S n)
  end.
(** [iter::Repeat] and [iter::Zip]. src/expand/parameters.rs:117. *)
Definition repeat_steps {A} : counted A A := fun x => (repeat_next x, 1).
(** [iter::Zip], src/expand/parameters.rs:117. *)
Definition zip_steps {S1 S2 A B} (n1 : counted S1 A) (n2 : counted S2 B) : counted (S1 * S2) (A * B) := fun '(a, b) =>
  match n1 a with
  | ((None, a'), n) => ((None, (a', b)), S n)
  | ((Some x, a'), n) =>
      match n2 b with
      | ((None, b'), m) => ((None, (a', b')), S (n + m))
      | ((Some y, b'), m) => ((Some (x, y), (a', b')), S (n + m))
      end
  end.
(** [iter::FlatMap]; [f] takes steps too. src/expand/mod.rs:207,290,297. *)
Fixpoint flat_map_loop_steps {S1 S2 A B} (outer : counted S1 A) (f : A -> S2 * nat) (inner : counted S2 B)
    (fuel : nat) (s : flat_mapped S1 S2) : option ((option B * flat_mapped S1 S2) * nat) :=
  match fuel with
  | O => None
  | S fuel' =>
      match or_clear_steps inner (fm_front s) with
      | ((Some x, u), n) => Some ((Some x, mkFlat (fm_iter s) u (fm_back s)), n)
      | ((None, u), n) =>
          match or_clear_steps outer (fm_iter s) with
          | ((None, o), m) =>
              let '((x, v), k) := or_clear_steps inner (fm_back s) in Some ((x, mkFlat o u v), n + m + k)
          | ((Some a, o), m) =>
              match flat_map_loop_steps outer f inner fuel' (mkFlat o (Some (fst (f a))) (fm_back s)) with
              | Some (r, k) => Some (r, n + m + snd (f a) + k)
              | None => None
              end
          end
      end
  end.
(** [FlatMap::next], src/expand/mod.rs:207,290,297. *)
Definition flat_map_steps {S1 S2 A B} (outer : counted S1 A) (size : S1 -> nat) (f : A -> S2 * nat)
    (inner : counted S2 B) : counted (flat_mapped S1 S2) B := fun s =>
  match flat_map_loop_steps outer f inner (2 + match fm_iter s with Some o => size o | None => 0 end) s with
  | Some (r, n) => (r, S n)
  | None => ((None, s), 1)
  end.
(** A function that makes an iterator without calling [next] of any. Such as src/expand/mod.rs:338-349. *)
Definition free {A B} (f : A -> B) : A -> B * nat := fun a => (f a, 0).
(** [iter::Peekable]. [next], called at src/expand/mod.rs:504,584,588. *)
Definition peekable_steps {St A} (next : counted St A) : counted (peekable St A) A := fun p =>
  match pk_peeked p with
  | Some v => ((v, mkPeekable None (pk_iter p)), 1)
  | None => let '((v, s), n) := next (pk_iter p) in ((v, mkPeekable None s), S n)
  end.
(** [Peekable::peek], called at src/expand/mod.rs:505,586. *)
Definition peek_steps {St A} (next : counted St A) : counted (peekable St A) A := fun p =>
  match pk_peeked p with
  | Some v => ((v, p), 1)
  | None => let '((v, s), n) := next (pk_iter p) in ((v, mkPeekable (Some v) s), S n)
  end.
(** [i.iter_elements().map(AsChar::as_char).eq(str.chars())]: two calls on the left and one on the right for
    every char compared, and at the end. src/expand/mod.rs:413. *)
Fixpoint eq_steps (a b : str) : nat :=
  match a, b with
  | x :: a', y :: b' => if (x =? y)%N then 3 + eq_steps a' b' else 3
  | _, _ => 3
  end.

(** ** The crate's *)
(** src/expand/mod.rs:503-506 [SkipLast::next]. *)
Definition skip_last_steps {St A} (next : counted St A) : counted (peekable St A) A := fun p =>
  let '((x, p1), n) := peekable_steps next p in
  let '((peeked, p2), m) := peek_steps next p1 in
  ((match peeked with Some _ => x | None => None end, p2), S (n + m)).
(** src/expand/mod.rs:532-536 [OwnedChars::next]: and the chars passed. *)
Definition owned_chars_steps : counted owned_chars char := fun s =>
  let '(r, n) := owned_chars_next_calls s in (r, S n).
(** src/expand/mod.rs:583-601: the [loop] of [EscapeForRegex::next]. *)
Fixpoint escape_loop_steps {St} (next : counted St char) (fuel : nat) (it : peekable St char)
    : option ((option char * escaper St) * nat) :=
  match fuel with
  | O => None
  | S fuel' =>
      let '((c, it1), n) := peekable_steps next it in
      match c with
      | Some c =>
          if (c =? c_ "\")%N then
            let '((d, it2), m) := peek_steps next it1 in
            match d with
            | None => Some ((None, mkEscaper it2 None), n + m)
            | Some d =>
                if should_be_escaped d then
                  let '((w, it3), k) := peekable_steps next it2 in
                  Some ((Some (c_ "\"), mkEscaper it3 w), n + m + k)
                else
                  match escape_loop_steps next fuel' it2 with
                  | Some (r, k) => Some (r, n + m + k)
                  | None => None
                  end
            end
          else if should_be_escaped c then Some ((Some (c_ "\"), mkEscaper it1 (Some c)), n)
          else Some ((Some c, mkEscaper it1 None), n)
      | None => Some ((None, mkEscaper it1 None), n)
      end
  end.
(** src/expand/mod.rs:576-602 [EscapeForRegex::next]. *)
Definition escape_steps {St} (next : counted St char) : counted (escaper St) char := fun s =>
  match es_was_escaped s with
  | Some c => ((Some c, mkEscaper (es_iter s) None), 1)
  | None =>
      match escape_loop_steps next 2 (es_iter s) with
      | Some (r, n) => (r, S n)
      | None => ((None, s), 1)
      end
  end.

(** ** src/expand/mod.rs *)
Section Expand.
  Context {I : Type} (elements : I -> str).

  (** src/expand/mod.rs:247-249, 345-347; the [Map] is that of [as_char], which Lazy.v leaves out. *)
  Definition chars_steps : counted str char := map_steps (fun c => c) list_steps.
  (** src/expand/mod.rs:248,346. *)
  Definition text_steps : counted text_iter (item I) := map_steps ok_char (escape_steps chars_steps).
  (** src/expand/mod.rs:372-380 *)
  Definition optional_steps : counted optional_iter (item I) :=
    map_steps ok_char (chain_steps (chain_steps list_steps (escape_steps chars_steps)) list_steps).
  (** src/expand/mod.rs:338-349 *)
  Definition alternative_steps : counted alternative_iter (item I) := either_steps optional_steps text_steps.
  (** src/expand/mod.rs:285-292 *)
  Definition single_alternation_steps : counted single_alternation_iter (item I) :=
    chain_steps (flat_map_steps list_steps (@List.length _) (free (alternative_into elements)) alternative_steps) once_steps.
  (** src/expand/mod.rs:294-299 *)
  Definition alternation_steps : counted alternation_iter (item I) :=
    chain_steps
      (chain_steps (map_steps ok_char list_steps)
         (skip_last_steps
            (flat_map_steps list_steps (@List.length _) (free single_alternation_into) single_alternation_steps)))
      once_steps.
  (** src/expand/mod.rs:412-452 *)
  Definition parameter_steps : counted parameter_iter (item I) :=
    either_steps (either_steps (map_steps ok_char list_steps) (map_steps ok_char owned_chars_steps)) once_steps.
  (** src/expand/mod.rs:412-451: the comparisons, up to the one that holds; the names are literals. *)
  Fixpoint name_steps (name : str) (literals : list str) : nat :=
    match literals with
    | [] => 0
    | l :: literals' => eq_steps name l + if chars_eq name l then 0 else name_steps name literals'
    end.
  (** src/expand/mod.rs:412-451, the iterator and the comparisons. *)
  Definition parameter_into_steps (p : parameter I) : parameter_iter * nat :=
    (parameter_into elements p,
     name_steps (elements (par_input p)) [s_ "int"; s_ "float"; s_ "word"; s_ "string"; s_ ""]).
  (** src/expand/mod.rs:234-251 *)
  Definition single_expression_steps : counted single_expression_iter (item I) :=
    either_steps alternation_steps (either_steps optional_steps (either_steps parameter_steps text_steps)).
  (** src/expand/mod.rs:243-250. *)
  Definition single_expression_into_steps (x : single_expression I) : single_expression_iter * nat :=
    (single_expression_into elements x, match x with ExParameter p => snd (parameter_into_steps p) | _ => 0 end).
  (** src/expand/mod.rs:202-209 *)
  Definition expression_steps : counted expression_iter (item I) :=
    chain_steps
      (chain_steps once_steps
         (flat_map_steps list_steps (@List.length _) single_expression_into_steps single_expression_steps))
      once_steps.

  (** ** src/expand/parameters.rs *)
  Section Custom.
    Context (digits spaces words : ranges) (to_string : hir -> str).
    (** src/expand/parameters.rs:187-254 *)
    Definition custom_steps : counted custom_iter (item I) :=
      either_steps once_steps
        (either_steps parameter_steps
           (either_steps
              (chain_steps (chain_steps (map_steps ok_char list_steps) (map_steps ok_char owned_chars_steps)) once_steps)
              (chain_steps (chain_steps once_steps (map_steps ok_char list_steps)) once_steps))).
    (** src/expand/parameters.rs:188-254; the lookup is not counted. *)
    Definition custom_into_steps (get : provider I) (p : parameter I) : custom_iter * nat :=
      (custom_into elements digits spaces words to_string get p,
       match get (par_input p) with None => snd (parameter_into_steps p) | Some _ => 0 end).
    (** src/expand/parameters.rs:156-167 *)
    Definition single_custom_steps : counted single_custom_iter (item I) :=
      either_steps custom_steps single_expression_steps.
    (** src/expand/parameters.rs:156-167. *)
    Definition single_custom_into_steps (get : provider I) (x : single_expression I) : single_custom_iter * nat :=
      (single_custom_into elements digits spaces words to_string get x,
       match x with ExParameter p => snd (custom_into_steps get p) | _ => 0 end).
    (** src/expand/parameters.rs:107-122; the [Map] of [add_pars] included. *)
    Definition expression_custom_steps : counted expression_custom_iter (item I) :=
      chain_steps
        (chain_steps once_steps
           (flat_map_steps (map_steps (fun x => x) (zip_steps list_steps repeat_steps)) (fun s => List.length (fst s))
              (fun '(x, get) => single_custom_into_steps get x) single_custom_steps))
        once_steps.
  End Custom.
End Expand.

(** [collect::<Result<String, _>>()] with the steps added up ([GenericShunt::next] and [String::push] are
    constant per call and not counted). src/expand/mod.rs:71,116. *)
Fixpoint try_collect_steps {St I} (next : counted St (item I)) (fuel : nat) (s : St)
    : option ((str + param_error I) * nat) :=
  match fuel with
  | O => None
  | S fuel' =>
      match next s with
      | ((None, _), n) => Some (inl [], n)
      | ((Some (IErr e), _), n) => Some (inr e, n)
      | ((Some (IOk c), s'), n) =>
          match try_collect_steps next fuel' s' with
          | Some (inl t, m) => Some (inl (c :: t), n + m)
          | Some (inr e, m) => Some (inr e, n + m)
          | None => None
          end
      end
  end.
