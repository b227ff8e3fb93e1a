(** [nom_locate::LocatedSpan<&str>] (src/ast.rs:25-26, [Spanned]) and the [nom::Input] and
    [nom::Offset] operations on it. Library code, modelled from nom 8.0 / nom_locate 5.0.

    Simplifications: [extra] is [()] and left out; the [u32] line counter is unbounded (it would
    need 2^32 newlines to overflow; C90: Lines.v has it as it is). For [&str] as input see
    Generic.v. *)
From Verif Require Export Base.

(** src/ast.rs:26 [Spanned]. *)
Record span := mkspan {
  off : N;      (* location_offset(): bytes from the start of the original input *)
  line : N;     (* location_line(): 1-based *)
  frag : str    (* fragment() *)
}.

(** [LocatedSpan::new]. Called at src/ast.rs:41. *)
Definition span_new (s : str) : span := mkspan 0 1 s.

(** [Input::input_len]. Called at src/combinator.rs:63-71,89 and src/parse.rs:75,165,313,365. *)
Definition input_len (i : span) : N := blen (frag i).

(** [Input::take]: the first [n] bytes. Called at src/parse.rs:78,165,169,272,314,435,442. *)
Definition take (i : span) (n : N) : option span :=
  match take_bytes n (frag i) with
  | Some p => Some (mkspan (off i) (line i) p)
  | None => None
  end.

(** [Input::take_from]: all but the first [n] bytes; offset and line advance over what is skipped. Called at
    src/combinator.rs:69,95,99,126. *)
Definition take_from (i : span) (n : N) : option span :=
  match take_bytes n (frag i), drop_bytes n (frag i) with
  | Some p, Some q => Some (mkspan (off i + n) (line i + newlines p) q)
  | _, _ => None
  end.

(** [Input::take_split]: (suffix, prefix). Called at src/combinator.rs:117 and by nom's [tag] and
    [take_while]. *)
Definition take_split (i : span) (n : N) : option (span * span) :=
  match take_from i n, take i n with
  | Some s, Some p => Some (s, p)
  | _, _ => None
  end.

(** [Input::slice_index]: byte index of the [count]-th char, [None] for [Err(Needed)]. Called at
    src/parse.rs:78. *)
Fixpoint slice_index_str (s : str) (count : nat) : option N :=
  match count, s with
  | O, _ => Some 0
  | S _, [] => None
  | S k, c :: s' =>
      match slice_index_str s' k with
      | Some n => Some (len_utf8 c + n)
      | None => None
      end
  end.
(** [slice_index] of a span, src/parse.rs:78. *)
Definition slice_index (i : span) (count : nat) : option N := slice_index_str (frag i) count.

(** [Input::iter_elements]. Called at src/combinator.rs:78 and src/parse.rs:153,262. *)
Definition iter_elements (i : span) : str := frag i.

(** [Offset::offset]: [None] is the overflow panic. Called at src/combinator.rs:116. *)
Definition offset (a b : span) : option N :=
  if off b <? off a then None else Some (off b - off a).
