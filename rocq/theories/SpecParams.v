(** What custom parameters mean, in terms of the matchers alone. *)
From Verif Require Export SpecExpand Params.

(** The groups of a regex in order, and for each whether there is no repetition around it; [{1}] does
    not count (the crate drops it). *)
Fixpoint marks (r : re) : list (option str * bool) :=
  match r with
  | REmpty | RLit _ | RDot | RClass _ | RLook _ => []
  | RRep min max _ r =>
      if (min =? 1) && opt_eqb N.eqb max (Some 1) then marks r else map (fun x => (fst x, false)) (marks r)
  | RCap n r => (n, true) :: marks r
  | RCat a b | RAlt a b => marks a ++ marks b
  end.
(** No group below a repetition. *)
Fixpoint flat (r : re) : Prop :=
  match r with
  | REmpty | RLit _ | RDot | RClass _ | RLook _ => True
  | RRep _ _ _ r => groups r = []
  | RCap _ r => flat r
  | RCat a b | RAlt a b => flat a /\ flat b
  end.
(** The groups that have no repetition around get the names [__id_k], [__id_(k+1)] and so on; the
    others keep theirs. *)
Inductive renamed (id : N) : N -> list (option str * bool) -> list (option str) -> Prop :=
| renamed_nil k : renamed id k [] []
| renamed_outer k n l n' l' : group_named id k n' -> renamed id (k + 1) l l' -> renamed id k ((n, true) :: l) (Some n' :: l')
| renamed_inner k n l l' : renamed id k l l' -> renamed id k ((n, false) :: l) (n :: l').
Definition has_outer (r : re) : bool := existsb snd (marks r).

Section Types.
  Context (digits spaces words : ranges).
  Notation rm := (Regex.rm (in_ranges digits) (in_ranges spaces) (in_ranges words)).

  (** Repetitions of groups: not zero times, and not of something that matches only the empty string
      (regex-syntax drops such groups). *)
  Fixpoint tame (r : re) : Prop :=
    match r with
    | REmpty | RLit _ | RDot | RClass _ | RLook _ => True
    | RRep _ max _ r => tame r /\ (groups r = [] \/ max <> Some 0 /\ exists p m q c, m <> [] /\ Forall scalar m /\ rm r p m q c)
    | RCap _ r => tame r
    | RCat a b | RAlt a b => tame a /\ tame b
    end.
  (** The Unicode tables hold ranges. *)
  Definition tables_ok : Prop := Forall (fun k => Forall (fun x => fst x <= snd x) k) [digits; spaces; words].

  Context {I : Type} (text : I -> str) (get : provider I).
  (** The type of a parameter: what the provider says, else a built-in type. A matcher without
      capturing groups (outside of repetitions) is a capturing group itself. *)
  Definition custom_type (p : parameter I) (pre m post : str) (v : list (option str)) : Prop :=
    match get (par_input p) with
    | None => typed (in_ranges digits) (in_ranges spaces) (text (par_input p)) m v
    | Some t => exists r c, regex_new t = Done r /\ rm r pre m post c /\ v = if has_outer r then c else Some m :: c
    end.
  Definition custom_groups (p : parameter I) (l : list (option str)) : Prop :=
    match get (par_input p) with
    | None => parameter_groups text p l
    | Some t => exists r, regex_new t = Done r /\
        if has_outer r then renamed (par_id p) 0 (marks r) l else l = None :: groups r
    end.
  (** Nothing to complain about: a built-in type, or a matcher that is a regex. *)
  Definition custom_valid (ok : re -> Prop) (p : parameter I) : Prop :=
    match get (par_input p) with
    | None => built_in (text (par_input p))
    | Some t => exists r, regex_new t = Done r /\ ok r
    end.
  (** The same, but matchers without an open parenthesis are not looked at. *)
  Definition custom_checked (p : parameter I) : Prop :=
    match get (par_input p) with
    | None => built_in (text (par_input p))
    | Some t => In (c_ "(") t -> exists r, regex_new t = Done r
    end.
End Types.

(** ** [Display for Hir]: the regex for a [Hir] *)
Definition rfail : re := RClass (mkClass false []).
Definition ralt (l : list re) : re := fold_right RAlt rfail l.
Definition class_of (k : ranges) : class := mkClass false (map (fun x => CRange (fst x) (snd x)) k).
Fixpoint unhir (h : hir) : re :=
  match h with
  | HEmpty => REmpty
  | HLit t => mk_cat (map RLit t)
  | HClass k => RClass (class_of k)
  | HLook l => RLook l
  | HRep min max g h => RRep min max g (unhir h)
  | HCap _ n h => RCap n (unhir h)
  | HCat l => mk_cat (map unhir l)
  | HAlt l => ralt (map unhir l)
  end.
(** The same groups, and the same matches with the same captures, on strings of Rust chars. *)
Definition same_meaning (r r' : re) : Prop :=
  groups r = groups r' /\
  forall digits spaces words p m q c, Forall scalar m ->
    rm (in_ranges digits) (in_ranges spaces) (in_ranges words) r p m q c <->
    rm (in_ranges digits) (in_ranges spaces) (in_ranges words) r' p m q c.
(** [Hir]s as they come from regexes: names are names, ranges and counts are in order. *)
Definition group_name_string (n : str) : Prop := exists t r, parse_syntax t = Done r /\ In (Some n) (groups r).
Fixpoint printable (h : hir) : Prop :=
  match h with
  | HEmpty | HLit _ | HLook _ => True
  | HClass k => Forall (fun x => fst x <= snd x) k
  | HRep a b _ h => (a <= u32_max /\ match b with Some n => a <= n <= u32_max | None => True end) /\ printable h
  | HCap _ n h => match n with Some n => group_name_string n | None => True end /\ printable h
  | HCat l => (fix all l := match l with [] => True | h :: l => printable h /\ all l end) l
  | HAlt l => l <> [] /\ (fix all l := match l with [] => True | h :: l => printable h /\ all l end) l
  end.
(** What [Display] promises: the text is a regex for the same [Hir]. *)
Definition faithful (to_string : hir -> str) (h : hir) : Prop :=
  exists r, parse_syntax (to_string h) = Done r /\ same_meaning r (unhir h).
Definition prints_meaning (to_string : hir -> str) : Prop := forall h, printable h -> faithful to_string h.
(** The same for the matchers in use only. *)
Definition display_ok {I} (digits spaces words : ranges) (to_string : hir -> str) (get : provider I) (p : parameter I) : Prop :=
  forall t r, get (par_input p) = Some t -> regex_new t = Done r ->
    faithful to_string (rename_capture_groups (translate digits spaces words r) (par_id p)).
(** No repetition right below a repetition. *)
Fixpoint no_nested (h : hir) : bool :=
  match h with
  | HEmpty | HLit _ | HClass _ | HLook _ => true
  | HRep _ _ _ h => match h with HRep _ _ _ _ => false | _ => no_nested h end
  | HCap _ _ h => no_nested h
  | HCat l | HAlt l => forallb no_nested l
  end.
