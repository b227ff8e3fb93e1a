(** Specification: what is asked of [Debug]. *)
From Verif Require Export Debug.

(** Chars of Rust identifiers, as far as they occur. *)
Definition ident (c : char) : bool :=
  (c_ "a" <=? c) && (c <=? c_ "z") || (c_ "A" <=? c) && (c <=? c_ "Z") || (c_ "0" <=? c) && (c <=? c_ "9") || (c =? c_ "_").
(** A name does not begin with a digit. *)
Definition a_name (n : str) : bool :=
  match n with [] => false | c :: _ => negb ((c_ "0" <=? c) && (c <=? c_ "9")) end && forallb ident n.
(** Names are names. *)
Fixpoint proper (d : dbg) : bool :=
  match d with
  | DStr _ | DNum _ | DUnit => true
  | DTuple n l => a_name n && forallb proper l
  | DStruct n l => a_name n && negb (match l with [] => true | _ => false end) && forallb (fun x => a_name (fst x) && proper (snd x)) l
  | DList l => forallb proper l
  end.
(** Different values are printed in different ways. *)
Definition tells {A} (d : A -> dbg) : Prop :=
  forall printable alternate x y, debug_text printable alternate (d x) = debug_text printable alternate (d y) -> x = y.
(** Visible: printed as it is, or ASCII but no control char. *)
Definition plainly (printable : char -> bool) (c : char) : Prop := printable c = true \/ c_ " " <= c <= c_ "~".
