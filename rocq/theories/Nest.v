(** Model of the nesting limit of regex-syntax, which [Regex::new] (src/expand/mod.rs:72,117) and
    [regex_syntax::Parser] (src/expand/parameters.rs:207) keep: a regex nested more than 250 deep is an error. The crates
    are external; this is [NestLimiter] of regex-syntax, which visits the syntax tree. *)
From Verif Require Export Params.

(** What [Regex.step] leaves out of the tree and the limit looks at: a non-capturing group is a node (here: a group without
    a name), [\d] and the like are no bracketed classes (here: a dot, as deep). Parser behind src/expand/mod.rs:72,117. *)
Definition mark (s : state) (c : char) (s' : state) : state :=
  match st_mode s, st_items s' with
  | MEsc, RClass _ :: l =>
      match st_mode s' with MHex _ => s' | _ => mkState (st_mode s') (RDot :: l) (st_alts s') (st_stack s') end
  | (MNormal | MRep | MWord), r :: l =>
      match st_stack s with
      | mkFrame KGroup _ _ :: _ =>
          if c =? c_ ")" then mkState (st_mode s') (RCap None r :: l) (st_alts s') (st_stack s') else s'
      | _ => s'
      end
  | _, _ => s'
  end.
(** Parser behind src/expand/mod.rs:72,117: one char. *)
Definition nest_step (s : state) (c : char) : outcome state :=
  obind (step s c) (fun s' => Done (mark s c s')).
(** Parser behind src/expand/mod.rs:72,117: all chars. *)
Fixpoint nest_run (t : str) (s : state) : outcome state :=
  match t with
  | [] => Done s
  | c :: t' => obind (nest_step s c) (nest_run t')
  end.
(** [NestLimiter] (behind src/expand/mod.rs:72,117): how deep nodes stand in each other, of the kinds that count. These are
    concatenations and alternations of several parts, repetitions, groups, bracketed classes, and in those the union of
    several items or an operation. A longer [mk_cat] or [mk_alt] is one node. *)
Fixpoint depth (r : re) : nat :=
  match r with
  | REmpty | RLit _ | RDot | RLook _ => 0
  | RClass k => match cl_items k with [_] => 1 | _ => 2 end
  | RRep _ _ _ r | RCap _ r => S (depth r)
  | RCat a b => Nat.max (S (depth a)) (match b with RCat _ _ => depth b | _ => S (depth b) end)
  | RAlt a b => Nat.max (S (depth a)) (match b with RAlt _ _ => depth b | _ => S (depth b) end)
  end.
(** How deep a regex is nested, if it is one. Behind src/expand/mod.rs:72,117. *)
Definition nest (t : str) : option nat :=
  match obind (nest_run t init) finish with Done r => Some (depth r) | _ => None end.

(** [Regex::new] (src/expand/mod.rs:72,117) with a limit; [nest_limit] of regex-syntax and regex is 250. *)
Definition limited_new (limit : nat) (t : str) : outcome re :=
  obind (regex_new t) (fun r =>
    match nest t with
    | Some d => if Nat.leb d limit then Done r else Invalid
    | None => Unsupported
    end).

Section Limited.
  (** [Regex::new] and [regex_syntax::Parser::parse]. *)
  Context (new : str -> outcome re).
  (** src/expand/mod.rs:69-72 and 113-117, as [regex_by], with [new]. *)
  Definition regex_by_new (expand : expression span -> list (item span)) (input : str) : expanded span :=
    match expression_parse input with
    | RetErr e => XParsing e
    | Panics => XPanic
    | Diverges => XDiverges
    | RetOk e =>
        match collect_result (expand e) with
        | inr Unmodelled => XUnsupported
        | inr err => XExpansion err
        | inl t =>
            match new t with
            | Done r => XOk t r
            | Invalid => XRegex
            | Unsupported => XUnsupported
            end
        end
    end.
  Context {I : Type} (elements : I -> str).
  Context (digits spaces words : ranges) (to_string : hir -> str) (get : provider I).
  (** src/expand/parameters.rs:179-255, as [expand_custom], with [new]. *)
  Definition expand_custom_new (p : parameter I) : list (item I) :=
    match get (par_input p) with
    | None => expand_parameter elements p
    | Some v =>
        let plain := ok (s_ "(" ++ v ++ s_ ")") in
        if contains v (c_ "(") then
          match new v with
          | Done r =>
              let h := translate digits spaces words r in
              if has_capture_groups h
              then ok (s_ "(?:" ++ owned (to_string (rename_capture_groups h (par_id p))) ++ s_ ")")
              else plain
          | Invalid => [IErr (RenameRegexGroup (par_input p) v)]
          | Unsupported => [IErr Unmodelled]
          end
        else plain
    end.
  (** src/expand/parameters.rs:147-168, as [expand_single_custom], with [new]. *)
  Definition expand_single_new (x : single_expression I) : list (item I) :=
    match x with
    | ExParameter p => expand_custom_new p
    | _ => expand_single elements x
    end.
  (** src/expand/parameters.rs:98-123, as [expand_expression_custom], with [new]. *)
  Definition expand_expression_new (e : expression I) : list (item I) :=
    ok (s_ "^") ++ flat_map expand_single_new e ++ ok (s_ "$").
End Limited.
(** src/expand/mod.rs:66-73 [Expression::regex], with a limit. *)
Definition limited_regex (limit : nat) (input : str) : expanded span :=
  regex_by_new (limited_new limit) (expand_expression iter_elements) input.
(** src/expand/mod.rs:103-130 [Expression::regex_with_parameters], with a limit. *)
Definition limited_regex_with_parameters (limit : nat) (digits spaces words : ranges) (to_string : hir -> str)
    (get : provider span) (input : str) : expanded span :=
  regex_by_new (limited_new limit)
    (expand_expression_new (limited_new limit) iter_elements digits spaces words to_string get) input.
