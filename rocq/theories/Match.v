(** Model of a search with a regex, as [Regex::captures] and [Regex::is_match] of the [regex] crate do
    it (external, no source in /repo; the crate's documentation calls these on the regexes it produces:
    README.md:22-25, tests at src/expand/mod.rs:625-778). The documented rule is leftmost-first: the
    search starts as far left as possible, and among the matches starting there it takes the one that a
    backtracking search finds first, trying the left alternative before the right one and, in a greedy
    repetition, one more iteration before none.

    An iteration that matches the empty string: the [regex] crate compiles a repetition to copies of what is
    repeated, and its automaton is never twice in the same state at the same place. Of the copies only the last one
    of [x{n,}] is a loop; it is entered at least once, so its first iteration may be empty and then ends it, the later
    ones may not. (Order of matches: regex-automata's [c_bounded] and [c_at_least], from memory.) Simplified: in a loop
    around something that matches the empty string and prefers shorter matches, as in [(a*?b*?)+] on "ab", the
    automaton does not start the iteration "b" after "a", having been in [b*?] there already, and captures "ab".
    The regexes of expressions over built-in parameters have no loop around something that matches the empty string
    (C48_loops). This searches the regex as it is written, where the crate searches its simplification: see Compiled.v
    and C80. *)
From Verif Require Export Regex.

(** A match of a part of the regex: the text matched, the rest of the subject, the captures. Of a [Regex] made
    at src/expand/mod.rs:72,117. *)
Record way := mkway { w_mid : str; w_rest : str; w_caps : list (option str) }.

Section Ways.
  Context (digit space word : char -> bool).
  (** What precedes, the subject, and the ways to match at its start; no counterpart in the code, see the head
      of this file (the [Regex] of src/expand/mod.rs:72,117 is searched by its caller). *)
  Definition matcher := str -> str -> list way.

  (** [ws], each continued by [next]. No counterpart in src/expand/mod.rs:72,117 (external crate). *)
  Definition followed (join : list (option str) -> list (option str) -> list (option str))
      (pre : str) (next : matcher) (ws : list way) : list way :=
    flat_map (fun w => map (fun v => mkway (w_mid w ++ w_mid v) (w_rest v) (join (w_caps w) (w_caps v)))
                           (next (pre ++ w_mid w) (w_rest w))) ws.
  (** A literal, [.] or a class, as in the regexes of src/expand/mod.rs:417-448. *)
  Definition one_char (test : char -> bool) : matcher := fun _ s =>
    match s with
    | c :: s' => if test c then [mkway [c] s' []] else []
    | [] => []
    end.
  (** The empty match; external crate, src/expand/mod.rs:72,117. *)
  Definition nothing (caps : list (option str)) : matcher := fun _ s => [mkway [] s caps].

  (** [k] iterations, then [next]. External crate, src/expand/mod.rs:72,117. *)
  Fixpoint required (body next : matcher) (k : nat) : matcher := fun pre s =>
    match k with
    | O => next pre s
    | S k => followed merge pre (required body next k) (body pre s)
    end.
  (** At most [k] iterations. External crate, src/expand/mod.rs:72,117. *)
  Fixpoint at_most (body : matcher) (none : list (option str)) (greedy : bool) (k : nat) : matcher := fun pre s =>
    match k with
    | O => nothing none pre s
    | S k =>
        let again := followed merge pre (at_most body none greedy k) (body pre s) in
        if greedy then again ++ nothing none pre s else nothing none pre s ++ again
    end.
  (** Any number of further iterations, none of them empty; [fuel] exceeds the length of the subject. External crate,
      src/expand/mod.rs:72,117. *)
  Fixpoint further (body : matcher) (none : list (option str)) (greedy : bool) (fuel : nat) : matcher := fun pre s =>
    match fuel with
    | O => nothing none pre s
    | S fuel =>
        let again := followed merge pre (further body none greedy fuel)
          (filter (fun w => match w_mid w with [] => false | _ => true end) (body pre s)) in
        if greedy then again ++ nothing none pre s else nothing none pre s ++ again
    end.
  (** At least one iteration; an empty one is the only one. External crate, src/expand/mod.rs:72,117. *)
  Definition at_least_one (body : matcher) (none : list (option str)) (greedy : bool) : matcher := fun pre s =>
    flat_map (fun w =>
      match w_mid w with
      | [] => followed merge pre (nothing none) [w]
      | _ => followed merge pre (further body none greedy (S (List.length s))) [w]
      end) (body pre s).
  (** A repetition, as in the regexes of src/expand/mod.rs:417-448. *)
  Definition repeated (body : matcher) (none : list (option str)) (min : N) (max : option N) (greedy : bool) : matcher :=
    match max with
    | Some n => if n <? min then fun _ _ => [] else required body (at_most body none greedy (N.to_nat (n - min))) (N.to_nat min)
    | None =>
        match N.to_nat min with
        | O => fun pre s =>
            if greedy then at_least_one body none greedy pre s ++ nothing none pre s
            else nothing none pre s ++ at_least_one body none greedy pre s
        | S k => required body (at_least_one body none greedy) k
        end
    end.

  (** All matches of [r] at the start of [s], which [pre] precedes, in order of preference. External crate,
      src/expand/mod.rs:72,117. *)
  Fixpoint ways (r : re) : matcher :=
    match r with
    | REmpty => nothing []
    | RLit c => one_char (N.eqb c)
    | RDot => one_char (fun c => negb (c =? 10))
    | RClass k => one_char (class_has digit space word k)
    | RLook LStart => fun pre s => match pre with [] => nothing [] pre s | _ => [] end
    | RLook LEnd => fun pre s => match s with [] => nothing [] pre s | _ => [] end
    | RLook LWord => fun pre s => if word_boundary word pre s then nothing [] pre s else []
    | RLook LNotWord => fun pre s => if word_boundary word pre s then [] else nothing [] pre s
    | RRep min max greedy r => repeated (ways r) (no_captures r) min max greedy
    | RCap _ r => fun pre s => map (fun w => mkway (w_mid w) (w_rest w) (Some (w_mid w) :: w_caps w)) (ways r pre s)
    | RCat a b => fun pre s => followed (@app _) pre (ways b) (ways a pre s)
    | RAlt a b => fun pre s =>
        map (fun w => mkway (w_mid w) (w_rest w) (w_caps w ++ no_captures b)) (ways a pre s) ++
        map (fun w => mkway (w_mid w) (w_rest w) (no_captures a ++ w_caps w)) (ways b pre s)
    end.

  (** The leftmost start, the first way from there. External crate, src/expand/mod.rs:72,117. *)
  Fixpoint search (r : re) (pre s : str) : option (str * way) :=
    match ways r pre s with
    | w :: _ => Some (pre, w)
    | [] => match s with [] => None | c :: s' => search r (pre ++ [c]) s' end
    end.
  (** [Regex::captures]: the whole match (group 0), then the groups in order. Of a [Regex] made at
      src/expand/mod.rs:72,117. *)
  Definition captures (r : re) (s : str) : option (list (option str)) :=
    option_map (fun '(_, w) => Some (w_mid w) :: w_caps w) (search r [] s).
  (** [Regex::is_match]. Of a [Regex] made at src/expand/mod.rs:72,117. *)
  Definition matches (r : re) (s : str) : bool :=
    match search r [] s with Some _ => true | None => false end.
End Ways.

(** No loop (a repetition of more than one iteration) around something that matches the empty string: on such
    regexes the treatment of empty iterations above plays no role. The regexes of src/expand/mod.rs:417-448 are such. *)
Fixpoint proper_loops (digit space word : char -> bool) (r : re) : Prop :=
  match r with
  | REmpty | RLit _ | RDot | RClass _ | RLook _ => True
  | RRep _ max _ r => proper_loops digit space word r /\
      ((exists n, max = Some n /\ n <= 1) \/ forall p q c, ~ rm digit space word r p [] q c)
  | RCap _ r => proper_loops digit space word r
  | RCat a b | RAlt a b => proper_loops digit space word a /\ proper_loops digit space word b
  end.
