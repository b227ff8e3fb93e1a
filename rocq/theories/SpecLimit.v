(** What the theorems on the size limit assume. *)
From Verif Require Export Limit SpecParse SpecExpand.

(** A state of the automaton takes at least one unit of memory and at most [k]. *)
Definition counts_states (digits spaces words : ranges) (k : nat) (measure : re -> nat) : Prop := forall r,
  let states := List.length (program (in_ranges digits) (in_ranges spaces) (in_ranges words) r) in
  (states <= measure r <= k * states)%nat.
(** The result of a call without the limit, if its automaton keeps the limit; else an error. *)
Definition under_limit (measure : re -> nat) (limit : nat) (digits spaces words : ranges) (x : expanded span) : expanded span :=
  match x with
  | XOk t r => if Nat.leb (measure (compiled digits spaces words r)) limit then XOk t r else XRegex
  | XParsing _ | XExpansion _ | XRegex | XPanic | XDiverges | XUnsupported => x
  end.
