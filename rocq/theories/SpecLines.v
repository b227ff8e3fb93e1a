(** Specification side: results whose inputs are viewed as something else, from any input type to any other, and the
    line counter. *)
From Verif Require Export SpecGeneric Lines.

(** A result with every input [i] in it replaced by [view i]; [f] does so in the value. *)
Definition gmap_bad {K J} (view : K -> J) (b : gbad K) : gbad J :=
  match b with
  | GError e => GError (map_error view e)
  | GFailure e => GFailure (map_error view e)
  | GIncomplete => GIncomplete
  | GPanic => GPanic
  | GFuel => GFuel
  end.
Definition gmap_result {K J A B} (view : K -> J) (f : A -> B) (r : gresult K A) : gresult J B :=
  match r with
  | GOk i a => GOk (view i) (f a)
  | GBad b => GBad (gmap_bad view b)
  end.

(** The operations [ops] do to the views what those of [base] do to what is viewed... *)
Record view {K J} (base : input_ops K) (ops : input_ops J) (h : K -> J) : Prop := mkview {
  view_len : forall i, g_len ops (h i) = g_len base i;
  view_take : forall i n, g_take ops (h i) n = option_map h (g_take base i n);
  view_take_from : forall i n, g_take_from ops (h i) n = option_map h (g_take_from base i n);
  view_take_split : forall i n, g_take_split ops (h i) n = option_map (fun '(a, b) => (h a, h b)) (g_take_split base i n);
  view_slice_index : forall i n, g_slice_index ops (h i) n = g_slice_index base i n;
  view_elements : forall i, g_elements ops (h i) = g_elements base i;
  view_offset : forall a b, g_offset ops (h a) (h b) = g_offset base a b
}.
(** ...or panic. *)
Definition maybe {A B} (h : A -> B) (x : option B) (y : option A) : Prop := x = None \/ x = option_map h y.
Record below {K J} (base : input_ops K) (ops : input_ops J) (h : K -> J) : Prop := mkbelow {
  below_len : forall i, g_len ops (h i) = g_len base i;
  below_take : forall i n, maybe h (g_take ops (h i) n) (g_take base i n);
  below_take_from : forall i n, maybe h (g_take_from ops (h i) n) (g_take_from base i n);
  below_take_split : forall i n, maybe (fun '(a, b) => (h a, h b)) (g_take_split ops (h i) n) (g_take_split base i n);
  below_slice_index : forall i n, g_slice_index ops (h i) n = g_slice_index base i n;
  below_elements : forall i, g_elements ops (h i) = g_elements base i;
  below_offset : forall a b, maybe (fun n => n) (g_offset ops (h a) (h b)) (g_offset base a b)
}.

(** A location as a [u32] has it. *)
Definition wrapped (i : span) : span := mkspan (off i) (line i mod 2 ^ 32) (frag i).
(** What [parse] returns, with every span [i] replaced by [h i]. *)
Definition map_returned (h : span -> span) (r : returned (expression span) (error span)) : returned (expression span) (error span) :=
  match r with
  | RetOk e => RetOk (map_expression h e)
  | RetErr e => RetErr (map_error h e)
  | Panics => Panics
  | Diverges => Diverges
  end.
(** The lines of the text fit into a [u32]. *)
Definition few_lines (s : str) : Prop := newlines s + 1 < 2 ^ 32.
