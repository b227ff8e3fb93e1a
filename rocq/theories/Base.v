(** Characters and strings, as the Rust standard library has them.

    Not code of the repository: the part of [core::str] that the crate and nom rely on. *)
From Coq Require Export List NArith Bool Ascii String Lia.
Export ListNotations.
Open Scope N_scope.
Open Scope list_scope.

(** A [char] is its Unicode scalar value. The model does not exclude surrogates or values above 0x10FFFF, so
    every theorem also covers strings Rust cannot build. The chars that [AsChar::as_char] yields at
    src/parse.rs:149,153,258,262,357,498,501 and src/expand/mod.rs:241,413. *)
Definition char := N.
(** [&str] / [String]: its [chars()]. The argument of src/ast.rs:39 [try_from]. *)
Definition str := list char.

(** Literals of the Rust source (ASCII only). As at src/parse.rs:72,154. *)
Definition c_ (a : ascii) : char := N_of_ascii a.
(** String literals of the source, as at src/parse.rs:39. *)
Fixpoint s_ (x : string) : str :=
  match x with
  | EmptyString => []
  | String a y => c_ a :: s_ y
  end.

(** [char::len_utf8]. Called at src/combinator.rs:88. *)
Definition len_utf8 (c : char) : N :=
  if c <? 128 then 1 else if c <? 2048 then 2 else if c <? 65536 then 3 else 4.

(** [str::len]: length in bytes. Behind [input_len()] at src/combinator.rs:63-71 and src/parse.rs:75. *)
Fixpoint blen (s : str) : N :=
  match s with
  | [] => 0
  | c :: s' => len_utf8 c + blen s'
  end.

(** [&s[..n]]: [None] is the panic of Rust (out of bounds, or inside a character). Behind [take(n)] at
    src/parse.rs:78,165,169. *)
Fixpoint take_bytes (n : N) (s : str) : option str :=
  if n =? 0 then Some []
  else match s with
       | [] => None
       | c :: s' =>
           if n <? len_utf8 c then None
           else match take_bytes (n - len_utf8 c) s' with
                | Some t => Some (c :: t)
                | None => None
                end
       end.

(** [&s[n..]]: [None] is the panic of Rust. Behind [take_from(n)] at src/combinator.rs:69,95. *)
Fixpoint drop_bytes (n : N) (s : str) : option str :=
  if n =? 0 then Some s
  else match s with
       | [] => None
       | c :: s' => if n <? len_utf8 c then None else drop_bytes (n - len_utf8 c) s'
       end.

(** [str::contains(char)]. Called at src/parse.rs:149,182,258,296,357,498 and src/expand/mod.rs:577. *)
Fixpoint contains (s : str) (c : char) : bool :=
  match s with
  | [] => false
  | d :: s' => (d =? c) || contains s' c
  end.

(** [str::starts_with(&str)]. Behind [tag], src/parse.rs:191. *)
Fixpoint starts_with (p s : str) : bool :=
  match p, s with
  | [], _ => true
  | a :: p', b :: s' => (a =? b) && starts_with p' s'
  | _ :: _, [] => false
  end.

(** [str::find(predicate)]: byte index of the first char satisfying [p]. Behind [take_while],
    src/parse.rs:193. *)
Fixpoint find_bytes (p : char -> bool) (s : str) : option N :=
  match s with
  | [] => None
  | c :: s' =>
      if p c then Some 0
      else match find_bytes p s' with
           | Some n => Some (len_utf8 c + n)
           | None => None
           end
  end.

(** Number of ['\n'] in a string. Behind the line numbers of src/ast.rs:26. *)
Fixpoint newlines (s : str) : N :=
  match s with
  | [] => 0
  | c :: s' => (if c =? 10 then 1 else 0) + newlines s'
  end.

(** Equality of strings. Behind [Iterator::eq], src/expand/mod.rs:413. *)
Fixpoint str_eqb (a b : str) : bool :=
  match a, b with
  | [], [] => true
  | x :: a', y :: b' => (x =? y) && str_eqb a' b'
  | _, _ => false
  end.

(** [usize::MAX] on a 64-bit target. The bound of [*indexer += 1], src/parse.rs:198. *)
Definition usize_max : N := 18446744073709551615.
