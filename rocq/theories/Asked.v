(** Expansion with a provider whose answers may change: [Provider::get] (src/expand/parameters.rs:76) takes [&self], but a
    provider may hold a [Cell], a [Mutex] or a handle to something outside, and its [Clone] may do anything as well. Its answers
    are a function of what was done with it and its clones before: the [history]. The iterators of Lazy.v around the
    provider, with the history; what is inside them does not touch the provider. *)
From Verif Require Export Lazy.

(** What is done with a provider: it is cloned (src/expand/parameters.rs:117), or the last clone is asked for the matcher of a
    parameter (src/expand/parameters.rs:192). *)
Inductive event (I : Type) := Cloned | Asked (i : I).
Arguments Cloned {I}. Arguments Asked {I}.
(** From the first to the last. Of the calls at src/expand/parameters.rs:117,192. *)
Definition history (I : Type) := list (event I).

(** An iterator whose [next] may touch the provider. As the outermost one of src/expand/parameters.rs:128-145. *)
Definition iter_h (I St A : Type) := St -> history I -> (option A * St) * history I.
(** One that does not. As those of src/expand/mod.rs:215-228. *)
Definition untouched {I St A} (next : iter St A) : iter_h I St A := fun s h => (next s, h).

(** [iter::Repeat] clones what it repeats. Called at src/expand/parameters.rs:117. Simplification: which clone is asked is
    told by the history (the last), so the provider itself is [tt]. *)
Definition repeat_next_h {I} : iter_h I unit unit := fun x h => ((Some x, x), h ++ [Cloned]).
(** [iter::Zip]: the second iterator is not called once the first has finished. Called at src/expand/parameters.rs:117. *)
Definition zip_next_h {I S1 S2 A B} (n1 : iter_h I S1 A) (n2 : iter_h I S2 B) : iter_h I (S1 * S2) (A * B) := fun '(a, b) h =>
  match n1 a h with
  | ((None, a'), h1) => ((None, (a', b)), h1)
  | ((Some x, a'), h1) =>
      match n2 b h1 with
      | ((None, b'), h2) => ((None, (a', b')), h2)
      | ((Some y, b'), h2) => ((Some (x, y), (a', b')), h2)
      end
  end.
(** [and_then_or_clear], see [or_clear]. Used by the [Chain]s and the [FlatMap] of src/expand/parameters.rs:113-122. *)
Definition or_clear_h {I St A} (next : iter_h I St A) : iter_h I (option St) A := fun o h =>
  match o with
  | None => ((None, None), h)
  | Some s =>
      match next s h with
      | ((Some x, s'), h') => ((Some x, Some s'), h')
      | ((None, _), h') => ((None, None), h')
      end
  end.
(** [iter::Chain]. Called at src/expand/parameters.rs:113,122. *)
Definition chain_next_h {I S1 S2 A} (n1 : iter_h I S1 A) (n2 : iter_h I S2 A) : iter_h I (option S1 * option S2) A := fun '(a, b) h =>
  match or_clear_h n1 a h with
  | ((Some x, a'), h1) => ((Some x, (a', b)), h1)
  | ((None, a'), h1) =>
      match b with
      | None => ((None, (a', None)), h1)
      | Some t => let '((x, t'), h2) := n2 t h1 in ((x, (a', Some t')), h2)
      end
  end.
(** [FlatMap::next], see [flat_map_loop]; [f] may touch the provider. Made at src/expand/parameters.rs:119. *)
Fixpoint flat_map_loop_h {I S1 S2 A B} (outer : iter_h I S1 A) (f : A -> history I -> S2 * history I) (inner : iter S2 B) (fuel : nat)
    (s : flat_mapped S1 S2) (h : history I) : option ((option B * flat_mapped S1 S2) * history I) :=
  match fuel with
  | O => None
  | S fuel' =>
      match or_clear inner (fm_front s) with
      | (Some x, u) => Some ((Some x, mkFlat (fm_iter s) u (fm_back s)), h)
      | (None, u) =>
          match or_clear_h outer (fm_iter s) h with
          | ((None, o), h1) => let '(x, v) := or_clear inner (fm_back s) in Some ((x, mkFlat o u v), h1)
          | ((Some a, o), h1) => let '(t, h2) := f a h1 in flat_map_loop_h outer f inner fuel' (mkFlat o (Some t) (fm_back s)) h2
          end
      end
  end.
(** [FlatMap::next] with enough turns (proved). Made at src/expand/parameters.rs:119. *)
Definition flat_map_next_h {I S1 S2 A B} (outer : iter_h I S1 A) (size : S1 -> nat) (f : A -> history I -> S2 * history I) (inner : iter S2 B)
    : iter_h I (flat_mapped S1 S2) B := fun s h =>
  match flat_map_loop_h outer f inner (2 + match fm_iter s with Some o => size o | None => 0 end) s h with
  | Some r => r
  | None => ((None, s), h)
  end.

Section Expand.
  Context {I : Type} (elements : I -> str).
  Context (digits spaces words : ranges) (to_string : hir -> str) (answer : history I -> I -> option str).

  (** src/expand/parameters.rs:192: the one call of [get]; then as [custom_into] does with the answer. *)
  Definition custom_into_h (p : parameter I) (h : history I) : custom_iter * history I :=
    (custom_into elements digits spaces words to_string (fun _ => answer h (par_input p)) p, h ++ [Asked (par_input p)]).
  (** src/expand/parameters.rs:156-167. *)
  Definition single_custom_into_h (x : single_expression I) (h : history I) : single_custom_iter * history I :=
    match x with
    | ExParameter p => let '(s, h') := custom_into_h p h in (inl s, h')
    | _ => (inr (single_expression_into elements x), h)
    end.
  (** src/expand/parameters.rs:128-145 [ExpressionWithParsIter]. *)
  Definition expression_custom_iter_h :=
    (option (option (option (item I)) * option (flat_mapped (expression I * unit) (@single_custom_iter I))) * option (option (item I)))%type.
  (** src/expand/parameters.rs:128-145 [ExpressionWithParsIter]. *)
  Definition expression_custom_next_h : iter_h I expression_custom_iter_h (item I) :=
    chain_next_h
      (chain_next_h (untouched once_next)
         (flat_map_next_h (zip_next_h (@untouched I (expression I) _ list_next) repeat_next_h) (fun s => List.length (fst s))
            (fun '(x, _) => single_custom_into_h x) (single_custom_next elements)))
      (untouched once_next).
  (** src/expand/parameters.rs:107-122. *)
  Definition expression_custom_into_h (e : expression I) : expression_custom_iter_h :=
    chain (chain (Some (IOk (c_ "^"))) (flat_map_new (e, tt))) (Some (IOk (c_ "$"))).
End Expand.

(** [collect::<Result<String, _>>()], see [try_collect]. src/expand/mod.rs:116. *)
Fixpoint try_collect_h {St I} (next : iter_h I St (item I)) (fuel : nat) (s : St) (h : history I)
    : option ((str + param_error I) * history I) :=
  match fuel with
  | O => None
  | S fuel' =>
      match next s h with
      | ((None, _), h') => Some (inl [], h')
      | ((Some (IErr e), _), h') => Some (inr e, h')
      | ((Some (IOk c), s'), h') =>
          match try_collect_h next fuel' s' h' with
          | Some (inl t, h2) => Some (inl (c :: t), h2)
          | Some (inr e, h2) => Some (inr e, h2)
          | None => None
          end
      end
  end.

(** src/expand/mod.rs:103-130 [Expression::regex_with_parameters], see [regex_by]. [None] if [fuel] is too small. *)
Definition regex_with_h (digits spaces words : ranges) (to_string : hir -> str) (answer : history span -> span -> option str)
    (fuel : nat) (input : str) : option (expanded span * history span) :=
  match expression_parse input with
  | RetErr e => Some (XParsing e, [])
  | Panics => Some (XPanic, [])
  | Diverges => Some (XDiverges, [])
  | RetOk e =>
      match try_collect_h (expression_custom_next_h iter_elements digits spaces words to_string answer) fuel (expression_custom_into_h e) [] with
      | None => None
      | Some (inr Unmodelled, h) => Some (XUnsupported, h)
      | Some (inr err, h) => Some (XExpansion err, h)
      | Some (inl t, h) =>
          Some (match regex_new t with Done r => XOk t r | Invalid => XRegex | Unsupported => XUnsupported end, h)
      end
  end.
