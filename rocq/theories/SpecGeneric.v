(** Specification side: what becomes of the result of a parser when its inputs are viewed as something else. *)
From Verif Require Export Generic Expand SpecAst SpecErrors.

(** A result on spans with every span [i] in it replaced by [view i]; [f] does so in the value. *)
Definition map_bad {J} (view : span -> J) (b : bad) : gbad J :=
  match b with
  | BError e => GError (map_error view e)
  | BFailure e => GFailure (map_error view e)
  | BIncomplete => GIncomplete
  | BPanic => GPanic
  | BFuel => GFuel
  end.
Definition map_result {J A B} (view : span -> J) (f : A -> B) (r : result A) : gresult J B :=
  match r with
  | Ok i a => GOk (view i) (f a)
  | Bad b => GBad (map_bad view b)
  end.

(** Another input type may stand for spans: its operations do to the views what those of spans do to the spans. *)
Record hom {J} (ops : input_ops J) (h : span -> J) : Prop := mkhom {
  hom_len : forall i, g_len ops (h i) = input_len i;
  hom_take : forall i n, g_take ops (h i) n = option_map h (take i n);
  hom_take_from : forall i n, g_take_from ops (h i) n = option_map h (take_from i n);
  hom_take_split : forall i n, g_take_split ops (h i) n = option_map (fun '(a, b) => (h a, h b)) (take_split i n);
  hom_slice_index : forall i n, g_slice_index ops (h i) n = slice_index i n;
  hom_elements : forall i, g_elements ops (h i) = frag i;
  hom_offset : forall a b, g_offset ops (h a) (h b) = offset a b
}.

(** A span without its line, as a [&str]; and a span elsewhere: [o] bytes and [l] lines further on. *)
Definition unlocated (i : span) : slice := mkslice (off i) (frag i).
Definition moved (o l : N) (i : span) : span := mkspan (off i + o) (line i + l) (frag i).

Definition moved_bad (o l : N) (b : bad) : bad :=
  match b with
  | BError e => BError (map_error (moved o l) e)
  | BFailure e => BFailure (map_error (moved o l) e)
  | b => b
  end.
Definition moved_result {A} (o l : N) (f : (span -> span) -> A -> A) (r : result A) : result A :=
  match r with
  | Ok i a => Ok (moved o l i) (f (moved o l) a)
  | Bad b => Bad (moved_bad o l b)
  end.

(** The parser returns: a value, or an error of the crate (compare [returns]). *)
Definition returns_in {J A} (r : gresult J A) : Prop :=
  match r with
  | GOk _ _ | GBad (GError _) | GBad (GFailure _) => True
  | GBad GIncomplete | GBad GPanic | GBad GFuel => False
  end.

(** The errors of expansion, and its items, viewed as something else. *)
Definition map_item {I J} (view : I -> J) (x : item I) : item J :=
  match x with
  | IOk c => IOk c
  | IErr (NotFound i) => IErr (NotFound (view i))
  | IErr (RenameRegexGroup p re) => IErr (RenameRegexGroup (view p) re)
  | IErr Unmodelled => IErr Unmodelled
  end.
