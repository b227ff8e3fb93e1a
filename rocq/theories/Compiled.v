(** Model of a search as the [regex] crate does it since version 1.9: [Regex::new] (src/expand/mod.rs:72,117)
    translates the syntax to a [Hir], simplifying it, and compiles that; the order in which matches are tried
    is the order of the [Hir]. The crates are external (no source in /repo); [translate] is Hir.v, written
    after the documentation and behaviour of regex-syntax 0.8. *)
From Verif Require Export Match SpecParams.

Section Compiled.
  (** The Unicode tables of [\d], [\s], [\w]. *)
  Context (digits spaces words : ranges).
  (** What is compiled by [Regex::new], src/expand/mod.rs:72,117: the regex that the [Hir] stands for. *)
  Definition compiled (r : re) : re := unhir (translate digits spaces words r).
  (** [Regex::captures] of a [Regex] made at src/expand/mod.rs:72,117. *)
  Definition hir_captures (r : re) (s : str) : option (list (option str)) :=
    captures (in_ranges digits) (in_ranges spaces) (in_ranges words) (compiled r) s.
  (** [Regex::is_match] of a [Regex] made at src/expand/mod.rs:72,117. *)
  Definition hir_matches (r : re) (s : str) : bool :=
    matches (in_ranges digits) (in_ranges spaces) (in_ranges words) (compiled r) s.
End Compiled.
