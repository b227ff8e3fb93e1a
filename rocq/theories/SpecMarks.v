(** Specification: what can be read off an expression by looking for unescaped characters. Uses only strings, spans
    and the AST type; knows nothing of texts, blanks or of where what may stand. *)
From Verif Require Export SpecConcat.

(** What stands before the first unescaped [close]. *)
Fixpoint until (close : char) (escaped : bool) (s : str) : str :=
  match s with
  | [] => []
  | c :: r => if negb escaped && (c =? close) then [] else c :: until close (negb escaped && (c =? backslash)) r
  end.
(** For every unescaped [open] of [s], left to right: everything up to and including it, and what stands between it and
    the next unescaped [close]. [pre] stands before [s]. *)
Fixpoint opened (open close : char) (escaped : bool) (pre s : str) : list text_at :=
  match s with
  | [] => []
  | c :: r =>
    (if negb escaped && (c =? open) then [(pre ++ [c], until close false r)] else []) ++
    opened open close (negb escaped && (c =? backslash)) (pre ++ [c]) r
  end.
(** The same as spans. *)
Definition between (open close : char) (s : str) : list span := map (span_at 0 1) (opened open close false [] s).

(** The optionals of an expression, also those in alternations, left to right. *)
Definition branch_optionals {I} (b : single_alternation I) : list (optional I) :=
  flat_map (fun a => match a with AltOptional o => [o] | AltText _ => [] end) b.
Definition optionals {I} (e : expression I) : list (optional I) :=
  flat_map (fun x => match x with
    | ExOptional o => [o]
    | ExAlternation a => flat_map branch_optionals a
    | _ => []
    end) e.
(** Where the branches of the alternations start, but for the first branch of each. An optional starts with its
    parenthesis, which is not in its span. *)
Definition branch_start (b : single_alternation span) : N :=
  match b with
  | [] => 0
  | AltText t :: _ => off t
  | AltOptional o :: _ => off (opt_input o) - 1
  end.
Definition later_branches (e : expression span) : list N :=
  flat_map (fun x => match x with ExAlternation a => map branch_start (tl a) | _ => [] end) e.
