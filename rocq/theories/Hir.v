(** Model of the part of [regex_syntax::hir] (version 0.8) that src/expand/parameters.rs uses: the
    type [Hir], its simplifying constructors, the translation from the abstract syntax, and
    [Display]. The crate is external (no source in /repo); this is written after its documentation
    and behaviour. Then the module [regex_hir] of src/expand/parameters.rs:295-377. *)
From Verif Require Export Expand.

(** ** Sets of chars: sorted lists of ranges *)
(** [hir::ClassUnicode], the argument of [Hir::class] at src/expand/parameters.rs:339. *)
Definition ranges := list (N * N).
(** [char::MAX]; the bound of the classes of src/expand/parameters.rs:207. *)
Definition char_max : N := 1114111.
(** Unicode scalar values: what a Rust [char] can be. As in the classes of src/expand/parameters.rs:207. *)
Definition scalar (c : char) : Prop := c <= char_max /\ ~ (55296 <= c <= 57343).
(** Membership in a class of src/expand/parameters.rs:207. *)
Definition in_ranges (k : ranges) (c : char) : bool :=
  existsb (fun x => (fst x <=? c) && (c <=? snd x)) k.

(** [IntervalSet::canonicalize]: sort, then join ranges that overlap or touch. Done within
    src/expand/parameters.rs:207. *)
Fixpoint insert_range (x : N * N) (k : ranges) : ranges :=
  match k with
  | [] => [x]
  | y :: k' => if (fst x <? fst y) || (fst x =? fst y) && (snd x <=? snd y) then x :: k else y :: insert_range x k'
  end.
(** Sorting, of [IntervalSet::canonicalize]; done within src/expand/parameters.rs:207. *)
Definition sort_ranges (k : ranges) : ranges := fold_right insert_range [] k.
(** Joining, of [IntervalSet::canonicalize]; done within src/expand/parameters.rs:207. *)
Fixpoint join_ranges (x : N * N) (k : ranges) : ranges :=
  match k with
  | [] => [x]
  | y :: k' => if fst y <=? snd x + 1 then join_ranges (fst x, N.max (snd x) (snd y)) k' else x :: join_ranges y k'
  end.
(** [IntervalSet::canonicalize]; done within src/expand/parameters.rs:207. *)
Definition canonical (k : ranges) : ranges :=
  match sort_ranges k with [] => [] | x :: k' => join_ranges x k' end.
(** [char::increment] and [char::decrement] of regex-syntax: there are no surrogates. Used within
    src/expand/parameters.rs:207. *)
Definition next_char (c : char) : char := if c =? 55295 then 57344 else c + 1.
(** [char::decrement] of regex-syntax; used within src/expand/parameters.rs:207. *)
Definition previous_char (c : char) : char := if c =? 57344 then 55295 else c - 1.
(** [IntervalSet::negate]: the gaps, of a canonical set. Simplification: a gap that holds only surrogates is
    skipped. Done within src/expand/parameters.rs:207. *)
Fixpoint gaps (low : char) (k : ranges) : ranges :=
  match k with
  | [] => if low <=? char_max then [(low, char_max)] else []
  | (a, b) :: k' => (if (low <? a) && (low <=? previous_char a) then [(low, previous_char a)] else []) ++ gaps (N.max low (next_char b)) k'
  end.
(** [IntervalSet::negate]; done within src/expand/parameters.rs:207. *)
Definition negate (k : ranges) : ranges := gaps 0 k.

(** ** [Hir] *)
(** [hir::HirKind], matched on at src/expand/parameters.rs:309-319,336-375; a byte literal is the string it
    encodes, byte classes do not occur, properties are recomputed. *)
Inductive hir :=
| HEmpty
| HLit (t : str)
| HClass (k : ranges)
| HLook (l : look)
| HRep (min : N) (max : option N) (greedy : bool) (h : hir)
| HCap (index : N) (name : option str) (h : hir)
| HCat (l : list hir)
| HAlt (l : list hir).

(** Derived [PartialEq], used by [Hir::alternation], src/expand/parameters.rs:368. *)
Definition opt_eqb {A} (eqb : A -> A -> bool) (a b : option A) : bool :=
  match a, b with Some a, Some b => eqb a b | None, None => true | _, _ => false end.
(** Derived [PartialEq], used by [Hir::alternation], src/expand/parameters.rs:368. *)
Fixpoint list_eqb {A} (eqb : A -> A -> bool) (a b : list A) : bool :=
  match a, b with
  | [], [] => true
  | x :: a', y :: b' => eqb x y && list_eqb eqb a' b'
  | _, _ => false
  end.
(** Derived [PartialEq], used by [Hir::alternation], src/expand/parameters.rs:368. *)
Definition look_eqb (a b : look) : bool :=
  match a, b with LStart, LStart | LEnd, LEnd | LWord, LWord | LNotWord, LNotWord => true | _, _ => false end.
(** [impl PartialEq for Hir]. Used by [Hir::alternation], src/expand/parameters.rs:368. *)
Fixpoint hir_eqb (a b : hir) : bool :=
  match a, b with
  | HEmpty, HEmpty => true
  | HLit t, HLit u => str_eqb t u
  | HClass k, HClass j => list_eqb (fun x y => (fst x =? fst y) && (snd x =? snd y)) k j
  | HLook l, HLook l' => look_eqb l l'
  | HRep min max g h, HRep min' max' g' h' =>
      (min =? min') && opt_eqb N.eqb max max' && Bool.eqb g g' && hir_eqb h h'
  | HCap i n h, HCap i' n' h' => (i =? i') && opt_eqb str_eqb n n' && hir_eqb h h'
  | HCat l, HCat l' | HAlt l, HAlt l' =>
      (fix all (l l' : list hir) : bool :=
         match l, l' with
         | [], [] => true
         | x :: l, y :: l' => hir_eqb x y && all l l'
         | _, _ => false
         end) l l'
  | _, _ => false
  end.

(** [properties().maximum_len() == Some(0)]. Used by [Hir::repetition], src/expand/parameters.rs:341. *)
Fixpoint only_empty (h : hir) : bool :=
  match h with
  | HEmpty | HLook _ => true
  | HLit _ | HClass _ => false
  | HRep _ max _ h => match max with Some _ => only_empty h | None => false end
  | HCap _ _ h => only_empty h
  | HCat l | HAlt l => forallb only_empty l
  end.

(** [Hir::literal], [Hir::class], [Hir::repetition]. Called at src/expand/parameters.rs:338,339,341. *)
Definition h_literal (t : str) : hir := match t with [] => HEmpty | _ => HLit t end.
(** [Hir::class], called at src/expand/parameters.rs:339. *)
Definition h_class (k : ranges) : hir :=
  match k with
  | [(a, b)] => if a =? b then h_literal [a] else HClass k
  | _ => HClass k
  end.
(** [Hir::repetition], called at src/expand/parameters.rs:341. *)
Definition h_repetition (min : N) (max : option N) (greedy : bool) (h : hir) : hir :=
  let '(min, max) :=
    if only_empty h then (N.min min 1, match max with Some n => Some (N.min n 1) | None => Some 1 end)
    else (min, max) in
  if (min =? 0) && opt_eqb N.eqb max (Some 0) then HEmpty
  else if (min =? 1) && opt_eqb N.eqb max (Some 1) then h
  else HRep min max greedy h.

(** [Hir::concat]: flatten, drop empty parts, join literals. Called at src/expand/parameters.rs:360. *)
Definition flatten_cat (l : list hir) : list hir :=
  flat_map (fun h => match h with HCat l' => l' | HEmpty => [] | _ => [h] end) l.
(** Part of [Hir::concat], src/expand/parameters.rs:360: the literal read so far. *)
Definition flush (prior : str) : list hir := match prior with [] => [] | _ => [HLit prior] end.
(** Part of [Hir::concat], src/expand/parameters.rs:360: adjacent literals. *)
Fixpoint join_literals (prior : str) (l : list hir) : list hir :=
  match l with
  | [] => flush prior
  | HLit t :: l' => join_literals (prior ++ t) l'
  | h :: l' => flush prior ++ h :: join_literals [] l'
  end.
(** [Hir::concat], called at src/expand/parameters.rs:360. *)
Definition h_concat (l : list hir) : hir :=
  match join_literals [] (flatten_cat l) with
  | [] => HEmpty
  | [h] => h
  | l' => HCat l'
  end.

(** [Hir::alternation]: flatten; one char each, or a class each, make a class; lift a common prefix. [fuel]
    bounds the nesting of lifted prefixes. Called at src/expand/parameters.rs:368. *)
Definition flatten_alt (l : list hir) : list hir :=
  flat_map (fun h => match h with HAlt l' => l' | _ => [h] end) l.
(** Part of [Hir::alternation], src/expand/parameters.rs:368: all parts of one form. *)
Fixpoint all_some {A B} (f : A -> option B) (l : list A) : option (list B) :=
  match l with
  | [] => Some []
  | x :: l' => match f x, all_some f l' with Some y, Some m => Some (y :: m) | _, _ => None end
  end.
(** Part of [Hir::alternation], src/expand/parameters.rs:368: [singleton_chars]. *)
Definition as_char (h : hir) : option ranges :=
  match h with HLit [c] => Some [(c, c)] | _ => None end.
(** Part of [Hir::alternation], src/expand/parameters.rs:368: [class_chars]. *)
Definition as_class (h : hir) : option ranges :=
  match h with HClass k => Some k | _ => None end.
(** Part of [Hir::alternation], src/expand/parameters.rs:368: the parts of a concatenation. *)
Definition as_concat (h : hir) : option (list hir) :=
  match h with HCat l => Some l | _ => None end.
(** Part of [Hir::alternation], src/expand/parameters.rs:368: [lift_common_prefix], the prefix of two. *)
Fixpoint common (a b : list hir) : list hir :=
  match a, b with
  | x :: a', y :: b' => if hir_eqb x y then x :: common a' b' else []
  | _, _ => []
  end.
(** [Hir::alternation], called at src/expand/parameters.rs:368, on fuel. *)
Fixpoint h_alternation_ (fuel : nat) (l : list hir) : hir :=
  match flatten_alt l with
  | [] => HClass []
  | [h] => h
  | l' =>
      match all_some as_char l' with
      | Some ks => h_class (canonical (List.concat ks))
      | None =>
          match all_some as_class l' with
          | Some ks => h_class (canonical (List.concat ks))
          | None =>
              match all_some as_concat l', fuel with
              | Some (c :: cs), S fuel' =>
                  match fold_left common cs c with
                  | [] => HAlt l'
                  | p => h_concat (p ++ [h_alternation_ fuel' (map (fun x => h_concat (skipn (List.length p) x)) (c :: cs))])
                  end
              | _, _ => HAlt l'
              end
          end
      end
  end.
(** Fuel of [Hir::alternation], src/expand/parameters.rs:368. *)
Fixpoint hir_size (h : hir) : nat :=
  match h with
  | HRep _ _ _ h | HCap _ _ h => S (hir_size h)
  | HCat l | HAlt l => S (List.fold_right (fun h n => (hir_size h + n)%nat) 0%nat l)
  | _ => 1
  end.
(** [Hir::alternation], called at src/expand/parameters.rs:368. *)
Definition h_alternation (l : list hir) : hir := h_alternation_ (hir_size (HAlt l)) l.

(** ** Translation: [regex_syntax::Parser::parse] after the syntax was read *)
Section Translate.
  (** The Unicode tables of [\d], [\s], [\w]. *)
  Context (digits spaces words : ranges).
  (** Translation, src/expand/parameters.rs:207: [\d], [\s], [\w]. *)
  Definition perl_table (p : perl) : ranges :=
    match p with PDigit => digits | PSpace => spaces | PWord => words end.
  (** Translation, src/expand/parameters.rs:207: an item of a class. *)
  Definition item_ranges (i : class_item) : ranges :=
    match i with
    | CRange a b => [(a, b)]
    | CPerl n p => if n then negate (canonical (perl_table p)) else perl_table p
    end.
  (** Translation, src/expand/parameters.rs:207: a bracketed class. *)
  Definition class_ranges (k : class) : ranges :=
    let u := canonical (flat_map item_ranges (cl_items k)) in
    if cl_negated k then negate u else u.
  (** Translation, src/expand/parameters.rs:207: the alternatives together. *)
  Definition join_alts (l : list hir) : hir := match l with [h] => h | _ => h_alternation l end.
  (** The alternatives of a regex, and the index of the next capturing group. Simplification: an alternation
      that is the last alternative of another (possible with a non-capturing group) is read as part of it.
      Translation, src/expand/parameters.rs:207. *)
  Fixpoint branches (r : re) (i : N) : list hir * N :=
    match r with
    | REmpty => ([HEmpty], i)
    | RLit c => ([h_literal [c]], i)
    | RDot => ([h_class [(0, 9); (11, char_max)]], i)
    | RClass k => ([h_class (class_ranges k)], i)
    | RLook l => ([HLook l], i)
    | RRep min max g r => let '(l, j) := branches r i in ([h_repetition min max g (join_alts l)], j)
    | RCap n r => let '(l, j) := branches r (i + 1) in ([HCap i n (join_alts l)], j)
    | RCat a b =>
        let '(l, j) := branches a i in
        let '(m, k) := branches b j in
        ([h_concat [join_alts l; join_alts m]], k)
    | RAlt a b =>
        let '(l, j) := branches a i in
        let '(m, k) := branches b j in
        (join_alts l :: m, k)
    end.
  (** [Parser::parse], src/expand/parameters.rs:207, after [parse_syntax]. *)
  Definition translate (r : re) : hir := join_alts (fst (branches r 1)).
End Translate.

(** ** [impl Display for Hir] *)
(** [regex_syntax::is_meta_character], used by [to_string] at src/expand/parameters.rs:245. *)
Definition is_meta (c : char) : bool := contains (s_ "\.+*?()|[]{}^$#&-~") c.
(** [to_string] at src/expand/parameters.rs:245: a char of a literal or class. *)
Definition show_char (c : char) : str := if is_meta c then [c_ "\"; c] else [c].
(** [to_string] at src/expand/parameters.rs:245: a range of a class. *)
Definition show_range (x : N * N) : str :=
  let '(a, b) := x in
  if a =? b then show_char a
  else if a + 1 =? b then show_char a ++ show_char b
  else show_char a ++ s_ "-" ++ show_char b.
(** [to_string] at src/expand/parameters.rs:245: a group around a text. *)
Definition group_text (t : str) : str := s_ "(?:" ++ t ++ s_ ")".
(** [to_string] at src/expand/parameters.rs:245: a repetition operator. *)
Definition rep_suffix (min : N) (max : option N) (greedy : bool) : str :=
  let lazy := if greedy then [] else s_ "?" in
  match max with
  | None =>
      if min =? 0 then s_ "*" ++ lazy
      else if min =? 1 then s_ "+" ++ lazy
      else s_ "{" ++ dec min ++ s_ ",}" ++ lazy
  | Some n =>
      if (min =? 0) && (n =? 1) then s_ "?" ++ lazy
      else if (min =? 1) && (n =? 1) then []
      else if min =? n then s_ "{" ++ dec min ++ s_ "}"
      else s_ "{" ++ dec min ++ s_ "," ++ dec n ++ s_ "}" ++ lazy
  end.
(** [to_string] at src/expand/parameters.rs:245: alternatives, separated. *)
Fixpoint join_with (sep : str) (l : list str) : str :=
  match l with
  | [] => []
  | [t] => t
  | t :: l' => t ++ sep ++ join_with sep l'
  end.
(** [wrap]: whether the operand of a repetition that is itself a repetition is put in a group. To our
    knowledge the crate does not do so ([wrap = false]), and then [(?:a+)?] is printed as [a+?]. The theorems
    say which of the two they are about. [to_string] at src/expand/parameters.rs:245. *)
Fixpoint show (wrap : bool) (h : hir) : str :=
  match h with
  | HEmpty => s_ "(?:)"
  | HLit t => let u := flat_map show_char t in match t with [_] => u | _ => group_text u end
  | HClass [] => s_ "[a&&b]"
  | HClass k => s_ "[" ++ flat_map show_range k ++ s_ "]"
  | HLook LStart => s_ "\A"
  | HLook LEnd => s_ "\z"
  | HLook LWord => s_ "\b"
  | HLook LNotWord => s_ "\B"
  | HRep min max g h =>
      let t := show wrap h in
      (match h with HRep _ _ _ _ => if wrap then group_text t else t | _ => t end) ++ rep_suffix min max g
  | HCap _ n h =>
      s_ "(" ++ (match n with Some n => s_ "?P<" ++ n ++ s_ ">" | None => [] end) ++ show wrap h ++ s_ ")"
  | HCat l => group_text (List.concat (map (show wrap) l))
  | HAlt l => group_text (join_with (s_ "|") (map (show wrap) l))
  end.

(** ** src/expand/parameters.rs:295-377, module [regex_hir] *)
(** src/expand/parameters.rs:308-320 *)
Fixpoint has_capture_groups (h : hir) : bool :=
  match h with
  | HEmpty | HLit _ | HClass _ | HLook _ | HRep _ _ _ _ => false
  | HCap _ _ _ => true
  | HCat l | HAlt l => existsb has_capture_groups l
  end.

(** src/expand/parameters.rs:331-376; the indexer is passed through. *)
Fixpoint rename_groups_inner (parameter_id : N) (h : hir) (indexer : N) : hir * N :=
  let rename_all :=
    fix rename_all (l : list hir) (indexer : N) : list hir * N :=
      match l with
      | [] => ([], indexer)
      | x :: l' =>
          let '(y, i) := rename_groups_inner parameter_id x indexer in
          let '(m, j) := rename_all l' i in
          (y :: m, j)
      end in
  match h with
  | HEmpty => (HEmpty, indexer)
  | HLit t => (h_literal t, indexer)
  | HClass k => (h_class k, indexer)
  | HLook l => (HLook l, indexer)
  | HRep min max g h => (h_repetition min max g h, indexer)
  | HCap i _ h =>
      let name := s_ "__" ++ dec parameter_id ++ s_ "_" ++ dec indexer in
      let '(h', j) := rename_groups_inner parameter_id h (indexer + 1) in
      (HCap i (Some name) h', j)
  | HCat l => let '(m, j) := rename_all l indexer in (h_concat m, j)
  | HAlt l => let '(m, j) := rename_all l indexer in (h_alternation m, j)
  end.
(** src/expand/parameters.rs:324-326 *)
Definition rename_capture_groups (h : hir) (parameter_id : N) : hir :=
  fst (rename_groups_inner parameter_id h 0).
