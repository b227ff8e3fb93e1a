(** Model of the crate's own iterators (src/expand/mod.rs:469-603) as state machines over an
    arbitrary inner iterator, and of the standard library's [Peekable] they are built on. *)
From Verif Require Export Base.

(** [Iterator::next(&mut self) -> Option<Item>]: the new state is returned. As at
    src/expand/mod.rs:503,532,576. *)
Definition iter (St A : Type) : Type := St -> option A * St.

(** [vec::IntoIter], [str::Chars]: iterate a list. As at src/expand/mod.rs:207,294. *)
Definition list_next {A} : iter (list A) A := fun l =>
  match l with
  | [] => (None, [])
  | x :: l' => (Some x, l')
  end.

(** [std::iter::Peekable]: [peeked : Option<Option<Item>>] and the inner iterator. In
    src/expand/mod.rs:477,555. *)
Record peekable (St A : Type) := mkPeekable { pk_peeked : option (option A); pk_iter : St }.
Arguments mkPeekable {St A}. Arguments pk_peeked {St A}. Arguments pk_iter {St A}.

Section Adapters.
  Context {St A : Type} (next : iter St A).

  (** [Iterator::peekable]. Called at src/expand/mod.rs:493,566. *)
  Definition peekable_new (s : St) : peekable St A := mkPeekable None s.
  (** [Peekable::next]: [match self.peeked.take() { Some(v) => v, None => self.iter.next() }]. Called at
      src/expand/mod.rs:504,584,588. *)
  Definition peekable_next : iter (peekable St A) A := fun p =>
    match pk_peeked p with
    | Some v => (v, mkPeekable None (pk_iter p))
    | None => let '(v, s) := next (pk_iter p) in (v, mkPeekable None s)
    end.
  (** [Peekable::peek]: [self.peeked.get_or_insert_with(|| iter.next()).as_ref()]. Called at
      src/expand/mod.rs:505,586. *)
  Definition peekable_peek (p : peekable St A) : option A * peekable St A :=
    match pk_peeked p with
    | Some v => (v, p)
    | None => let '(v, s) := next (pk_iter p) in (v, mkPeekable (Some v) s)
    end.

  (** src/expand/mod.rs:490-495 [SkipLast::new] (the struct, :473-478, has the one field). *)
  Definition skip_last_new (s : St) : peekable St A := peekable_new s.
  (** src/expand/mod.rs:503-506 [SkipLast::next]. *)
  Definition skip_last_next : iter (peekable St A) A := fun p =>
    let '(next, p1) := peekable_next p in
    let '(peeked, p2) := peekable_peek p1 in
    (match peeked with Some _ => next | None => None end, p2).
End Adapters.

(** src/expand/mod.rs:513-527 [OwnedChars]: the string and the number of the current char. *)
Record owned_chars := mkOwnedChars { oc_str : str; oc_cur : nat }.
(** src/expand/mod.rs:524-526 [OwnedChars::new]. *)
Definition owned_chars_new (s : str) : owned_chars := mkOwnedChars s 0.
(** src/expand/mod.rs:532-536 [OwnedChars::next]: [self.str.chars().nth(self.cur)?; self.cur += 1]
    (the overflow of [cur] is not modelled: a [String] has fewer than 2^63 chars). *)
Definition owned_chars_next : iter owned_chars char := fun s =>
  match nth_error (oc_str s) (oc_cur s) with
  | None => (None, s)
  | Some c => (Some c, mkOwnedChars (oc_str s) (S (oc_cur s)))
  end.

(** src/expand/mod.rs:577: the chars of [should_be_escaped]. *)
Definition should_be_escaped (c : char) : bool := contains (s_ "^$[]()\{}.|?*+") c.

(** src/expand/mod.rs:553-561 [EscapeForRegex]. *)
Record escaper (St : Type) := mkEscaper { es_iter : peekable St char; es_was_escaped : option char }.
Arguments mkEscaper {St}. Arguments es_iter {St}. Arguments es_was_escaped {St}.

Section Escape.
  Context {St : Type} (next : iter St char).
  (** src/expand/mod.rs:565-567 [EscapeForRegex::new]. *)
  Definition escape_new (s : St) : escaper St := mkEscaper (peekable_new s) None.
  (** src/expand/mod.rs:583-601: the [loop]; [None] when [fuel] turns are not enough. *)
  Fixpoint escape_loop (fuel : nat) (it : peekable St char) : option (option char * escaper St) :=
    match fuel with
    | O => None
    | S fuel' =>
        let '(c, it1) := peekable_next next it in
        match c with
        | Some c =>
            if c =? c_ "\" then
              let '(d, it2) := peekable_peek next it1 in
              match d with
              | None => Some (None, mkEscaper it2 None)                 (* peek()? *)
              | Some d =>
                  if should_be_escaped d then
                    let '(w, it3) := peekable_next next it2 in
                    Some (Some (c_ "\"), mkEscaper it3 w)
                  else escape_loop fuel' it2                            (* continue *)
              end
            else if should_be_escaped c then Some (Some (c_ "\"), mkEscaper it1 (Some c))
            else Some (Some c, mkEscaper it1 None)
        | None => Some (None, mkEscaper it1 None)
        end
    end.
  (** src/expand/mod.rs:576-602 [EscapeForRegex::next]; two turns are always enough (proved). *)
  Definition escape_next : iter (escaper St) char := fun s =>
    match es_was_escaped s with
    | Some c => (Some c, mkEscaper (es_iter s) None)
    | None =>
        match escape_loop 2 (es_iter s) with
        | Some r => r
        | None => (None, s)
        end
    end.
End Escape.

(** [Iterator::collect]: calls [next] until the first [None], at most [fuel] times. Called at
    src/expand/mod.rs:71,116. *)
Fixpoint collect {St A} (fuel : nat) (next : iter St A) (s : St) : option (list A) :=
  match fuel with
  | O => None
  | S fuel' =>
      match next s with
      | (None, _) => Some []
      | (Some x, s') => option_map (cons x) (collect fuel' next s')
      end
  end.
