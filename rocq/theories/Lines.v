(** [LocatedSpan] with its line counter as it is: a [u32] (nom_locate 5.0, from memory: the newlines skipped are counted
    [as u32] and added to the line). Span.v has an unbounded one. The sum wraps in a build without overflow checks and
    panics in one with them. *)
From Verif Require Export Generic.

(** [u32::MAX]. The type of [location_line()] of a [Spanned], src/ast.rs:26. *)
Definition u32_max : N := 4294967295.
(** [as u32]. As done by [LocatedSpan::take_from], called at src/combinator.rs:69,95,99,126. *)
Definition as_u32 (n : N) : N := n mod (u32_max + 1).

(** [LocatedSpan::take_from] without overflow checks. Called at src/combinator.rs:69,95,99,126. *)
Definition wrapping_take_from (i : span) (n : N) : option span :=
  match take_bytes n (frag i), drop_bytes n (frag i) with
  | Some p, Some q => Some (mkspan (off i + n) (as_u32 (line i + as_u32 (newlines p))) q)
  | _, _ => None
  end.
(** [LocatedSpan::take_from] with overflow checks. Called at src/combinator.rs:69,95,99,126. *)
Definition checked_take_from (i : span) (n : N) : option span :=
  match take_bytes n (frag i), drop_bytes n (frag i) with
  | Some p, Some q =>
      if u32_max <? line i + as_u32 (newlines p) then None
      else Some (mkspan (off i + n) (line i + as_u32 (newlines p)) q)
  | _, _ => None
  end.
(** [LocatedSpan::take_split] by either. Called at src/combinator.rs:117. *)
Definition split_by (from : span -> N -> option span) (i : span) (n : N) : option (span * span) :=
  match from i n, take i n with
  | Some s, Some p => Some (s, p)
  | _, _ => None
  end.
(** [Spanned] in a build without and in one with overflow checks. src/ast.rs:26. *)
Definition wrapping_ops : input_ops span :=
  mkops input_len take wrapping_take_from (split_by wrapping_take_from) slice_index iter_elements offset.
(** With overflow checks. src/ast.rs:26. *)
Definition checked_ops : input_ops span :=
  mkops input_len take checked_take_from (split_by checked_take_from) slice_index iter_elements offset.

(** src/ast.rs:36-49 [TryFrom::try_from] and src/ast.rs:57-61 [Expression::parse] with the operations of [ops]. *)
Definition expression_parse_by (ops : input_ops span) (value : str) : returned (expression span) (error span) :=
  match parse_expression_in ops (span_new value) with
  | GBad (GError e) => RetErr e
  | GBad (GFailure e) => RetErr e
  | GBad GIncomplete => RetErr ENeeded
  | GBad GPanic => Panics
  | GBad GFuel => Diverges
  | GOk rest parsed =>
      if g_len ops rest =? 0 then RetOk parsed
      else RetErr (Other rest KVerify)
  end.
