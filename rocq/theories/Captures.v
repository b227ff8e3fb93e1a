(** Model of reading a match: [Captures::get] and [Captures::name] of the [regex] crate (external, no
    source in /repo). The names of the groups are there for such lookups: src/expand/parameters.rs:29-32
    and 64-67 ("to identify multiple capturing groups related to a single parameter"). *)
From Verif Require Export Match.

(** The entries of the list of captures that belong to a group of that name; [Regex::new] rejects regexes with
    two such groups, so the first one is taken. The names are those of src/expand/mod.rs:440-441 and
    src/expand/parameters.rs:344. *)
Fixpoint named_entry (names : list (option str)) (c : list (option str)) (n : str) : option str :=
  match names, c with
  | Some m :: names, x :: c => if str_eqb m n then x else named_entry names c n
  | None :: names, _ :: c => named_entry names c n
  | _, _ => None
  end.
(** [Captures::name]: [None] if there is no such group, or if it took no part in the match. By the names of
    src/expand/parameters.rs:344. *)
Definition capture_name (r : re) (c : list (option str)) (n : str) : option str :=
  named_entry (groups r) (List.tl c) n.
(** [Captures::get]. For the groups of src/expand/mod.rs:417-448. *)
Definition capture_get (c : list (option str)) (k : nat) : option str :=
  match nth_error c k with Some x => x | None => None end.
