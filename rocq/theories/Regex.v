(** Model of the part of the [regex] / [regex-syntax] crates that the produced regexes rely on.
    These crates are external (no source in /repo): concrete syntax (a parser), and meaning (a match
    relation with captures). The crate under verification calls them at
    src/expand/mod.rs:72,117 ([Regex::new]) and src/expand/parameters.rs:205 ([regex_syntax::Parser]).

    Modelled syntax: literals, escapes of punctuation, control escapes, hexadecimal escapes, [\d \s \w] and negations,
    [.], [^], [$], [\A], [\z], [\b], [\B], bracketed classes of literals, ranges, escapes and perl classes,
    capturing, named and non-capturing groups, alternatives, [? * + {n} {n,} {n,m}] and their lazy
    forms; of the operations on classes only the text [[a&&b]], by which [Hir] prints the empty class.
    Everything else ([{,n}], flags, [\b{start}] and the like, [\p], nested classes and other class operations,
    non-ASCII group names) ends in [Unsupported]. The nesting limit is in Nest.v,
    the size limit in Limit.v. *)
From Verif Require Export Base.

(** ** Abstract syntax *)
(** [\d], [\s] (src/expand/mod.rs:417,429,435), [\w]: [ast::ClassPerl] of regex-syntax. *)
Inductive perl := PDigit | PSpace | PWord.
(** An item of a bracketed class, as in src/expand/mod.rs:429-441. *)
Inductive class_item :=
| CRange (a b : char)
| CPerl (negated : bool) (p : perl).
(** A bracketed class, as in src/expand/mod.rs:429-441. *)
Record class := mkClass { cl_negated : bool; cl_items : list class_item }.
(** [^] and [$] (src/expand/mod.rs:206,208), [\A] and [\z]; without the flag [m] they mean the same. Then [\b] and [\B]. *)
Inductive look := LStart | LEnd | LWord | LNotWord.
(** A non-capturing group is just its contents. What [Regex::new] reads at src/expand/mod.rs:72,117. *)
Inductive re :=
| REmpty
| RLit (c : char)
| RDot
| RClass (c : class)
| RLook (l : look)
| RRep (min : N) (max : option N) (greedy : bool) (r : re)
| RCap (name : option str) (r : re)
| RCat (a b : re)
| RAlt (a b : re).

(** A concatenation of several parts; see src/expand/mod.rs:72,117. *)
Fixpoint mk_cat (l : list re) : re :=
  match l with
  | [] => REmpty
  | [r] => r
  | r :: l' => RCat r (mk_cat l')
  end.
(** An alternation of several parts; see src/expand/mod.rs:72,117. *)
Fixpoint mk_alt (l : list re) : re :=
  match l with
  | [] => REmpty
  | [r] => r
  | r :: l' => RAlt r (mk_alt l')
  end.

(** The capturing groups, in order of their opening parentheses. Those of src/expand/mod.rs:417-448 are what a
    caller reads. *)
Fixpoint groups (r : re) : list (option str) :=
  match r with
  | REmpty | RLit _ | RDot | RClass _ | RLook _ => []
  | RRep _ _ _ r => groups r
  | RCap n r => n :: groups r
  | RCat a b | RAlt a b => groups a ++ groups b
  end.
(** The names among them, as given at src/expand/mod.rs:440-441 and src/expand/parameters.rs:344. *)
Definition group_names (r : re) : list str :=
  flat_map (fun n => match n with Some n => [n] | None => [] end) (groups r).

(** ** Parser: one step per character, with an explicit stack of open groups. *)
(** A hexadecimal escape: after [\x], [\u] or [\U], which want 2, 4 or 8 digits; with so many digits still to come;
    within braces. [parse_hex] of regex-syntax, behind src/expand/mod.rs:72,117. *)
Inductive hex := HFirst (digits : nat) | HDigits (more : nat) (v : N) | HBrace (v : option N).
(** Our own formulation of the parser behind src/expand/mod.rs:72,117 and src/expand/parameters.rs:207, which
    is external. *)
Inductive mode :=
| MNormal
| MRep                                  (* just after a repetition operator *)
| MEsc                                  (* \ *)
| MOpen                                 (* ( *)
| MOpenQ                                (* (? *)
| MOpenP                                (* (?P *)
| MOpenLt                               (* (?< *)
| MName (n : str)                       (* (?P<n, reversed *)
| MCount (n : option N)                 (* {n *)
| MCountTo (n : N) (m : option N)       (* {n,m *)
| MClass0                               (* [ *)
| MClass1 (neg : bool) (l : list class_item)              (* [^ and leading dashes *)
| MClassIn (neg : bool) (l : list class_item)
| MClassDash (neg : bool) (l : list class_item)           (* a dash where an item is expected *)
| MClassLit (neg : bool) (l : list class_item) (a : char) (* a literal: maybe the start of a range *)
| MClassRange (neg : bool) (l : list class_item) (a : char)          (* a- *)
| MClassEsc (neg : bool) (l : list class_item) (a : option char)     (* \ or a-\ *)
| MClassPerl (neg : bool) (l : list class_item)           (* after \d and the like *)
| MClassPerlDash (neg : bool) (l : list class_item)       (* \d- *)
| MFail1 | MFail2 | MFail3              (* [a& and [a&& and [a&&b *)
| MWord                                 (* after \b *)
| MHex (h : hex)                        (* \x and the like *)
| MClassHex (neg : bool) (l : list class_item) (a : option char) (h : hex)   (* the same in a class *)
| MWordCount.                           (* \b{; with a letter or a dash maybe \b{start} or the like, not modelled *)

(** The kind of an open group: capturing or not; parser behind src/expand/mod.rs:72,117. *)
Inductive kind := KCapture (name : option str) | KGroup.
(** An open group and what preceded it; parser behind src/expand/mod.rs:72,117. *)
Record frame := mkFrame { fr_kind : kind; fr_items : list re; fr_alts : list re }.
(** [st_items]: the current concatenation, reversed; [st_alts]: finished alternatives, reversed. Parser behind
    src/expand/mod.rs:72,117. *)
Record state := mkState { st_mode : mode; st_items : list re; st_alts : list re; st_stack : list frame }.

(** Of [Regex::new] (src/expand/mod.rs:72,117) and [regex_syntax::Parser::parse]
    (src/expand/parameters.rs:207): a regex, an error (its kind is left out), or syntax outside the modelled
    part. *)
Inductive outcome (A : Type) :=
| Done (a : A)
| Invalid
| Unsupported.
Arguments Done {A}. Arguments Invalid {A}. Arguments Unsupported {A}.
(** Sequencing of outcomes; parser behind src/expand/mod.rs:72,117. *)
Definition obind {A B} (o : outcome A) (f : A -> outcome B) : outcome B :=
  match o with Done a => f a | Invalid => Invalid | Unsupported => Unsupported end.

(** Parser behind src/expand/mod.rs:72,117: only the mode changes. *)
Definition set_mode (m : mode) (s : state) : state := mkState m (st_items s) (st_alts s) (st_stack s).
(** Parser behind src/expand/mod.rs:72,117: one more part of the concatenation. *)
Definition push_item (r : re) (s : state) : state :=
  mkState MNormal (r :: st_items s) (st_alts s) (st_stack s).
(** Parser behind src/expand/mod.rs:72,117: an open parenthesis. *)
Definition push_frame (k : kind) (s : state) : state :=
  mkState MNormal [] [] (mkFrame k (st_items s) (st_alts s) :: st_stack s).
(** The regex read since the last open parenthesis. Parser behind src/expand/mod.rs:72,117. *)
Definition body (items alts : list re) : re := mk_alt (rev (mk_cat (rev items) :: alts)).
(** Parser behind src/expand/mod.rs:72,117: a closing parenthesis. *)
Definition pop_frame (s : state) : outcome state :=
  match st_stack s with
  | [] => Invalid
  | f :: k =>
      let b := body (st_items s) (st_alts s) in
      Done (mkState MNormal
              (match fr_kind f with KCapture n => RCap n b | KGroup => b end :: fr_items f)
              (fr_alts f) k)
  end.
(** Parser behind src/expand/mod.rs:72,117: a bar. *)
Definition push_alt (s : state) : state :=
  mkState MNormal [] (mk_cat (rev (st_items s)) :: st_alts s) (st_stack s).
(** Parser behind src/expand/mod.rs:72,117: a repetition operator. *)
Definition repeat_last (min : N) (max : option N) (s : state) : outcome state :=
  match st_items s with
  | [] => Invalid
  | r :: l => Done (mkState MRep (RRep min max true r :: l) (st_alts s) (st_stack s))
  end.
(** Parser behind src/expand/mod.rs:72,117: a question mark after a repetition operator. *)
Definition make_lazy (s : state) : outcome state :=
  match st_items s with
  | RRep min max _ r :: l => Done (mkState MNormal (RRep min max false r :: l) (st_alts s) (st_stack s))
  | _ => Invalid
  end.

(** Parser behind src/expand/mod.rs:72,117: decimal digits of counts and names. *)
Definition is_digit_char (c : char) : bool := (c_ "0" <=? c) && (c <=? c_ "9").
(** Parser behind src/expand/mod.rs:72,117: letters of names and escapes. *)
Definition is_lower (c : char) : bool := (c_ "a" <=? c) && (c <=? c_ "z").
(** Parser behind src/expand/mod.rs:72,117: letters of names and escapes. *)
Definition is_upper (c : char) : bool := (c_ "A" <=? c) && (c <=? c_ "Z").
(** Parser behind src/expand/mod.rs:72,117: letters of names and escapes. *)
Definition is_letter (c : char) : bool := is_lower c || is_upper c.

(** What follows a backslash: a literal, a perl class, an anchor, the beginning of a hexadecimal escape. Parser behind src/expand/mod.rs:72,117. *)
Inductive escaped := EscLit (c : char) | EscPerl (negated : bool) (p : perl) | EscLook (l : look) | EscHex (digits : nat).
(** Parser behind src/expand/mod.rs:72,117: what an escape stands for. *)
Definition escape_meaning (c : char) : outcome escaped :=
  if c =? c_ "d" then Done (EscPerl false PDigit)
  else if c =? c_ "D" then Done (EscPerl true PDigit)
  else if c =? c_ "s" then Done (EscPerl false PSpace)
  else if c =? c_ "S" then Done (EscPerl true PSpace)
  else if c =? c_ "w" then Done (EscPerl false PWord)
  else if c =? c_ "W" then Done (EscPerl true PWord)
  else if c =? c_ "A" then Done (EscLook LStart)
  else if c =? c_ "z" then Done (EscLook LEnd)
  else if c =? c_ "b" then Done (EscLook LWord)
  else if c =? c_ "B" then Done (EscLook LNotWord)
  else if c =? c_ "a" then Done (EscLit 7)
  else if c =? c_ "f" then Done (EscLit 12)
  else if c =? c_ "t" then Done (EscLit 9)
  else if c =? c_ "n" then Done (EscLit 10)
  else if c =? c_ "r" then Done (EscLit 13)
  else if c =? c_ "v" then Done (EscLit 11)
  else if c =? c_ "x" then Done (EscHex 2)
  else if c =? c_ "u" then Done (EscHex 4)
  else if c =? c_ "U" then Done (EscHex 8)
  else if contains (s_ "pP<>") c then Unsupported
  else if (c <? 128) && negb (is_letter c) && negb (is_digit_char c) then Done (EscLit c)
  else Invalid.

(** The largest count, parser behind src/expand/mod.rs:72,117. *)
Definition u32_max : N := 4294967295.
(** Parser behind src/expand/mod.rs:72,117: a digit of a count. *)
Definition digit_value (c : char) : N := c - c_ "0".
(** Parser behind src/expand/mod.rs:72,117: one more digit of a count; simplified: unbounded, checked at the
    end. *)
Definition add_digit (n : option N) (c : char) : option N :=
  Some (match n with None => 0 | Some n => n end * 10 + digit_value c).

(** Parser behind src/expand/mod.rs:72,117: a char outside of classes, escapes, counts and names. *)
Definition step_normal (s : state) (c : char) : outcome state :=
  if c =? c_ "(" then Done (set_mode MOpen s)
  else if c =? c_ ")" then pop_frame s
  else if c =? c_ "|" then Done (push_alt s)
  else if c =? c_ "[" then Done (set_mode MClass0 s)
  else if c =? c_ "?" then repeat_last 0 (Some 1) s
  else if c =? c_ "*" then repeat_last 0 None s
  else if c =? c_ "+" then repeat_last 1 None s
  else if c =? c_ "{" then
    match st_items s with [] => Invalid | _ => Done (set_mode (MCount None) s) end
  else if c =? c_ "\" then Done (set_mode MEsc s)
  else if c =? c_ "." then Done (push_item RDot s)
  else if c =? c_ "^" then Done (push_item (RLook LStart) s)
  else if c =? c_ "$" then Done (push_item (RLook LEnd) s)
  else Done (push_item (RLit c) s).

(** Parser behind src/expand/mod.rs:72,117: a char of a group name ([is_capture_char]); non-ASCII names are
    not modelled. *)
Definition step_name (s : state) (n : str) (c : char) : outcome state :=
  if c =? c_ ">" then
    match n with [] => Invalid | _ => Done (push_frame (KCapture (Some (rev n))) s) end
  else if 128 <=? c then Unsupported
  else if (c =? c_ "_") || is_letter c then Done (set_mode (MName (c :: n)) s)
  else match n with
       | [] => Invalid
       | _ => if is_digit_char c || contains (s_ ".[]") c then Done (set_mode (MName (c :: n)) s)
              else Invalid
       end.

(** Parser behind src/expand/mod.rs:72,117: the end of a class. *)
Definition close_class (neg : bool) (l : list class_item) (s : state) : outcome state :=
  Done (push_item (RClass (mkClass neg (rev l))) s).
(** Parser behind src/expand/mod.rs:72,117: a char of a class; nested classes and operations are not modelled.
    *)
Definition step_class (neg : bool) (l : list class_item) (s : state) (c : char) : outcome state :=
  if c =? c_ "]" then close_class neg l s
  else if contains (s_ "[&~") c then Unsupported
  else if c =? c_ "-" then Done (set_mode (MClassDash neg l) s)
  else if c =? c_ "\" then Done (set_mode (MClassEsc neg l None) s)
  else Done (set_mode (MClassLit neg l c) s).
(** Parser behind src/expand/mod.rs:72,117: a range of a class. *)
Definition add_range (neg : bool) (l : list class_item) (s : state) (a b : char) : outcome state :=
  if b <? a then Invalid else Done (set_mode (MClassIn neg (CRange a b :: l)) s).

(** Parser behind src/expand/mod.rs:72,117: a char of the first count of a repetition; spaces and a missing count are not
    modelled. *)
Definition step_count (s : state) (n : option N) (c : char) : outcome state :=
  if is_digit_char c then Done (set_mode (MCount (add_digit n c)) s)
  else if contains (s_ "} ,") c then
    match n with
    | None => if c =? c_ "}" then Invalid else Unsupported
    | Some n =>
        if u32_max <? n then Invalid
        else if c =? c_ "}" then repeat_last n (Some n) s
        else if c =? c_ "," then Done (set_mode (MCountTo n None) s)
        else Unsupported
    end
  else if contains [9; 10; 11; 12; 13] c || (128 <=? c) then Unsupported
  else Invalid.
(** Parser behind src/expand/mod.rs:72,117: a hexadecimal digit ([is_hex]). *)
Definition hex_value (c : char) : option N :=
  if is_digit_char c then Some (digit_value c)
  else if (c_ "a" <=? c) && (c <=? c_ "f") then Some (c - c_ "a" + 10)
  else if (c_ "A" <=? c) && (c <=? c_ "F") then Some (c - c_ "A" + 10)
  else None.
(** Parser behind src/expand/mod.rs:72,117: the end of a hexadecimal escape, [char::from_u32]. *)
Definition hex_char (v : N) : outcome (hex + char) :=
  if (v <=? 1114111) && negb ((55296 <=? v) && (v <=? 57343)) then Done (inr v) else Invalid.
(** Parser behind src/expand/mod.rs:72,117: a char of a hexadecimal escape ([parse_hex_digits],
    [parse_hex_brace]). *)
Definition step_hex (h : hex) (c : char) : outcome (hex + char) :=
  match h with
  | HBrace v =>
      if c =? c_ "}" then match v with None => Invalid | Some v => hex_char v end
      else match hex_value c with
           | Some d => Done (inl (HBrace (Some (match v with None => 0 | Some v => v end * 16 + d))))
           | None => Invalid
           end
  | HFirst n =>
      if c =? c_ "{" then Done (inl (HBrace None))
      else match hex_value c with Some d => Done (inl (HDigits (pred n) d)) | None => Invalid end
  | HDigits n v =>
      match hex_value c with
      | Some d => if Nat.leb n 1 then hex_char (v * 16 + d) else Done (inl (HDigits (pred n) (v * 16 + d)))
      | None => Invalid
      end
  end.
(** Parser behind src/expand/mod.rs:72,117: a char in a class by an escape, maybe the end of a range. *)
Definition class_lit (neg : bool) (l : list class_item) (a : option char) (s : state) (c : char) : outcome state :=
  match a with
  | None => Done (set_mode (MClassLit neg l c) s)
  | Some a => add_range neg l s a c
  end.
(** Parser behind src/expand/mod.rs:72,117 and src/expand/parameters.rs:207: one char. *)
Definition step (s : state) (c : char) : outcome state :=
  match st_mode s with
  | MNormal => step_normal s c
  | MRep => if c =? c_ "?" then make_lazy s else step_normal (set_mode MNormal s) c
  | MEsc =>
      obind (escape_meaning c) (fun e =>
        match e with
        | EscLit c => Done (push_item (RLit c) s)
        | EscPerl n p => Done (push_item (RClass (mkClass false [CPerl n p])) s)
        | EscLook LWord => Done (set_mode MWord (push_item (RLook LWord) s))
        | EscLook l => Done (push_item (RLook l) s)
        | EscHex n => Done (set_mode (MHex (HFirst n)) s)
        end)
  | MOpen =>
      if c =? c_ "?" then Done (set_mode MOpenQ s)
      else step_normal (push_frame (KCapture None) s) c
  | MOpenQ =>
      if c =? c_ ":" then Done (push_frame KGroup s)
      else if c =? c_ "P" then Done (set_mode MOpenP s)
      else if c =? c_ "<" then Done (set_mode MOpenLt s)
      else if contains (s_ "=!") c then Invalid
      else Unsupported
  | MOpenP => if c =? c_ "<" then Done (set_mode (MName []) s) else Invalid
  | MOpenLt => if contains (s_ "=!") c then Invalid else step_name s [] c
  | MName n => step_name s n c
  | MCount n => step_count s n c
  | MWord =>
      if c =? c_ "{" then Done (set_mode MWordCount s) else step_normal (set_mode MNormal s) c
  | MHex h =>
      obind (step_hex h c) (fun x =>
        match x with inl h => Done (set_mode (MHex h) s) | inr c => Done (push_item (RLit c) s) end)
  | MClassHex neg l a h =>
      obind (step_hex h c) (fun x =>
        match x with inl h => Done (set_mode (MClassHex neg l a h) s) | inr c => class_lit neg l a s c end)
  | MWordCount => if is_letter c || (c =? c_ "-") then Unsupported else step_count s None c
  | MCountTo n m =>
      if is_digit_char c then Done (set_mode (MCountTo n (add_digit m c)) s)
      else if c =? c_ "}" then
        match m with
        | None => repeat_last n None s
        | Some m => if (u32_max <? m) || (m <? n) then Invalid else repeat_last n (Some m) s
        end
      else if (c =? c_ " ") || contains [9; 10; 11; 12; 13] c || (128 <=? c) then Unsupported
      else Invalid
  | MClass0 =>
      if c =? c_ "^" then Done (set_mode (MClass1 true []) s)
      else if c =? c_ "-" then Done (set_mode (MClass1 false [CRange c c]) s)
      else if c =? c_ "]" then Done (set_mode (MClassIn false [CRange c c]) s)
      else step_class false [] s c
  | MClass1 neg l =>
      if c =? c_ "-" then Done (set_mode (MClass1 neg (CRange c c :: l)) s)
      else match l with
           | [] => if c =? c_ "]" then Done (set_mode (MClassIn neg [CRange c c]) s)
                   else step_class neg l s c
           | _ => step_class neg l s c
           end
  | MClassIn neg l => step_class neg l s c
  | MClassDash neg l =>
      if c =? c_ "-" then Unsupported else step_class neg (CRange (c_ "-") (c_ "-") :: l) s c
  | MClassLit neg l a =>
      if c =? c_ "-" then Done (set_mode (MClassRange neg l a) s)
      else if (c =? c_ "&") && (a =? c_ "a") && negb neg && match l with [] => true | _ => false end
      then Done (set_mode MFail1 s)
      else step_class neg (CRange a a :: l) s c
  | MClassRange neg l a =>
      if c =? c_ "]" then close_class neg (CRange (c_ "-") (c_ "-") :: CRange a a :: l) s
      else if c =? c_ "-" then Unsupported
      else if c =? c_ "\" then Done (set_mode (MClassEsc neg l (Some a)) s)
      else add_range neg l s a c
  | MClassEsc neg l a =>
      obind (escape_meaning c) (fun e =>
        match e, a with
        | EscLit c, _ => class_lit neg l a s c
        | EscHex n, _ => Done (set_mode (MClassHex neg l a (HFirst n)) s)
        | EscPerl n p, None => Done (set_mode (MClassPerl neg (CPerl n p :: l)) s)
        | EscPerl _ _, Some _ => Invalid
        | EscLook _, _ => Invalid
        end)
  | MClassPerl neg l =>
      if c =? c_ "-" then Done (set_mode (MClassPerlDash neg l) s) else step_class neg l s c
  | MClassPerlDash neg l =>
      if c =? c_ "]" then close_class neg (CRange (c_ "-") (c_ "-") :: l) s
      else if c =? c_ "-" then Unsupported
      else Invalid
  | MFail1 => if c =? c_ "&" then Done (set_mode MFail2 s) else Unsupported
  | MFail2 => if c =? c_ "b" then Done (set_mode MFail3 s) else Unsupported
  | MFail3 => if c =? c_ "]" then close_class false [] s else Unsupported
  end.

(** Parser behind src/expand/mod.rs:72,117 and src/expand/parameters.rs:207: all chars. *)
Fixpoint run (t : str) (s : state) : outcome state :=
  match t with
  | [] => Done s
  | c :: t' => obind (step s c) (run t')
  end.
(** Parser behind src/expand/mod.rs:72,117: before the first char. *)
Definition init : state := mkState MNormal [] [] [].
(** Parser behind src/expand/mod.rs:72,117: after the last char. *)
Definition finish (s : state) : outcome re :=
  match st_mode s, st_stack s with
  | (MNormal | MRep | MWord), [] => Done (body (st_items s) (st_alts s))
  | _, _ => Invalid
  end.
(** [regex_syntax::ast::parse]: the syntax alone, then different names for different groups. Called within
    src/expand/mod.rs:72,117 and src/expand/parameters.rs:207. *)
Definition parse_syntax (t : str) : outcome re := obind (run t init) finish.
(** [GroupNameDuplicate] of regex-syntax, checked at src/expand/mod.rs:72,117 and
    src/expand/parameters.rs:207. *)
Fixpoint distinct (l : list str) : bool :=
  match l with
  | [] => true
  | x :: l' => negb (existsb (str_eqb x) l') && distinct l'
  end.
(** [Regex::new]. Called at src/expand/mod.rs:72,117; its syntax part at src/expand/parameters.rs:207. *)
Definition regex_new (t : str) : outcome re :=
  obind (parse_syntax t) (fun r => if distinct (group_names r) then Done r else Invalid).

(** ** Meaning *)
Section Meaning.
  (** The Unicode tables of [\d], [\s], [\w]. *)
  Context (digit space word : char -> bool).
  (** The chars of [\d], [\s], [\w] (src/expand/mod.rs:417-435); simplified: any table. *)
  Definition perl_has (p : perl) (c : char) : bool :=
    match p with PDigit => digit c | PSpace => space c | PWord => word c end.
  (** The chars of an item of a class, as in src/expand/mod.rs:429-441. *)
  Definition item_has (i : class_item) (c : char) : bool :=
    match i with
    | CRange a b => (a <=? c) && (c <=? b)
    | CPerl n p => xorb n (perl_has p c)
    end.
  (** The chars of a class, as in src/expand/mod.rs:429-441. *)
  Definition class_has (k : class) (c : char) : bool :=
    xorb (cl_negated k) (existsb (fun i => item_has i c) (cl_items k)).

  (** Whether exactly one of the chars around is a word char. External crate, src/expand/mod.rs:72,117. *)
  Definition word_boundary (pre post : str) : bool :=
    xorb (match rev pre with c :: _ => word c | [] => false end) (match post with c :: _ => word c | [] => false end).

  (** The captures of a later iteration win over those of earlier ones. External crate,
      src/expand/mod.rs:72,117. *)
  Fixpoint merge (old new : list (option str)) : list (option str) :=
    match old, new with
    | o :: old', n :: new' => match n with Some _ => n | None => o end :: merge old' new'
    | _, _ => []
    end.
  (** Groups that took no part in the match; external crate, src/expand/mod.rs:72,117. *)
  Definition no_captures (r : re) : list (option str) := map (fun _ => None) (groups r).

  (** [rm r pre mid post caps]: in the subject [pre ++ mid ++ post], [r] can match [mid], and the groups of
      [r], in order, have then captured [caps]. The meaning of the [Regex] made at src/expand/mod.rs:72,117;
      leftmost-first preference is in Match.v. *)
  Inductive rm : re -> str -> str -> str -> list (option str) -> Prop :=
  | rm_empty p q : rm REmpty p [] q []
  | rm_lit c p q : rm (RLit c) p [c] q []
  | rm_dot c p q : c <> 10 -> rm RDot p [c] q []
  | rm_class k c p q : class_has k c = true -> rm (RClass k) p [c] q []
  | rm_start q : rm (RLook LStart) [] [] q []
  | rm_end p : rm (RLook LEnd) p [] [] []
  | rm_word p q : word_boundary p q = true -> rm (RLook LWord) p [] q []
  | rm_not_word p q : word_boundary p q = false -> rm (RLook LNotWord) p [] q []
  | rm_cap n r p m q caps : rm r p m q caps -> rm (RCap n r) p m q (Some m :: caps)
  | rm_cat a b p x y q ca cb :
      rm a p x (y ++ q) ca -> rm b (p ++ x) y q cb -> rm (RCat a b) p (x ++ y) q (ca ++ cb)
  | rm_left a b p m q caps : rm a p m q caps -> rm (RAlt a b) p m q (caps ++ no_captures b)
  | rm_right a b p m q caps : rm b p m q caps -> rm (RAlt a b) p m q (no_captures a ++ caps)
  | rm_rep k min max greedy r p m q caps :
      min <= N.of_nat k -> match max with Some n => N.of_nat k <= n | None => True end ->
      rms k r p m q caps -> rm (RRep min max greedy r) p m q caps
  with rms : nat -> re -> str -> str -> str -> list (option str) -> Prop :=
  | rms_zero r p q : rms 0 r p [] q (no_captures r)
  | rms_succ k r p x y q cx cy :
      rm r p x (y ++ q) cx -> rms k r (p ++ x) y q cy -> rms (S k) r p (x ++ y) q (merge cx cy).

  (** [Regex::is_match]: somewhere in the subject. Of a [Regex] made at src/expand/mod.rs:72,117. *)
  Definition is_match (r : re) (s : str) : Prop :=
    exists p m q caps, s = p ++ m ++ q /\ rm r p m q caps.
End Meaning.
