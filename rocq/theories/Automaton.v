(** Model of how the [regex] crate runs a search in bounded time: the regex is compiled to an automaton
    ([regex_automata::nfa::thompson::Compiler]: [c], [c_cap], [c_concat], [c_alt_iter], [c_repetition], [c_bounded],
    [c_at_least], [c_zero_or_one], [c_exactly]) and the automaton is run by
    [regex_automata::nfa::thompson::backtrack::BoundedBacktracker] ([search_imp], [backtrack], [step]), which remembers
    where it has been. External crates, no source in /repo, written after their documentation and from memory;
    [Regex::new] is called at src/expand/mod.rs:72,117 and the [Regex] is searched by its caller. Simplified: one state
    reads one char (the crate compiles a char to the states of its UTF-8 bytes); the crate may also choose another
    engine that is documented to give the same answer; a union of many branches is a chain of binary ones. *)
From Verif Require Export Match.

(** The states of the automaton, [State] of [regex_automata::nfa::thompson] (external crate,
    src/expand/mod.rs:72,117); the tests they carry are functions. *)
Inductive inst :=
| IOne (test : char -> bool) (next : nat)
| ILook (holds : str -> str -> bool) (next : nat)
| ISplit (first second : nat)
| ISave (slot next : nat)
| IFail
| IMatch.

Section Automaton.
  Context (digit space word : char -> bool).

  (** What an assertion says about the text before and after. External crate, src/expand/mod.rs:72,117. *)
  Definition look_holds (l : look) (pre post : str) : bool :=
    match l with
    | LStart => match pre with [] => true | _ => false end
    | LEnd => match post with [] => true | _ => false end
    | LWord => word_boundary word pre post
    | LNotWord => negb (word_boundary word pre post)
    end.
  (** [Properties::minimum_len] is positive. External crate, src/expand/mod.rs:72,117. Simplified: the class of no chars
      has none in the crate. *)
  Fixpoint surely_some (r : re) : bool :=
    match r with
    | REmpty | RLook _ => false
    | RLit _ | RDot | RClass _ => true
    | RRep min _ _ r => (0 <? min) && surely_some r
    | RCap _ r => surely_some r
    | RCat a b => surely_some a || surely_some b
    | RAlt a b => surely_some a && surely_some b
    end.

  (** Compiles something so that it continues at a state, given its own first address: the code and where to enter
      it. External crate, src/expand/mod.rs:72,117. *)
  Definition compiler := nat -> nat -> list inst * nat.
  (** The preferred branch of a repetition. External crate, src/expand/mod.rs:72,117. *)
  Definition prefer (greedy : bool) (again exit : nat) : inst :=
    if greedy then ISplit again exit else ISplit exit again.
  (** [c_exactly]. External crate, src/expand/mod.rs:72,117. *)
  Fixpoint copies (body : compiler) (j : nat) : compiler := fun k n =>
    match j with
    | O => ([], k)
    | S j =>
        let '(code, e) := copies body j k n in
        let '(code', e') := body e (n + List.length code)%nat in
        (code ++ code', e')
    end.
  (** The optional copies of [c_bounded]: each may be left for [k]. External crate, src/expand/mod.rs:72,117. *)
  Fixpoint optional_copies (body : compiler) (greedy : bool) (j : nat) : compiler := fun k n =>
    match j with
    | O => ([], k)
    | S j =>
        let '(code, e) := optional_copies body greedy j k (S n) in
        let '(code', e') := body e (S n + List.length code)%nat in
        (prefer greedy e' k :: code ++ code', n)
    end.
  (** The loop of [c_at_least]: the state [n] decides on one more iteration; entered at the body. External crate,
      src/expand/mod.rs:72,117. *)
  Definition loop (body : compiler) (greedy : bool) : compiler := fun k n =>
    let '(code, e) := body n (S n) in (prefer greedy e k :: code, e).
  (** [c_repetition]. External crate, src/expand/mod.rs:72,117. *)
  Definition repetition (body : compiler) (some : bool) (min : N) (max : option N) (greedy : bool) : compiler := fun k n =>
    match max with
    | Some m =>
        if m <? min then ([IFail], n)
        else
          let '(code, e) := optional_copies body greedy (N.to_nat (m - min)) k n in
          let '(code', e') := copies body (N.to_nat min) e (n + List.length code)%nat in
          (code ++ code', e')
    | None =>
        match N.to_nat min with
        | O =>
            if some then (fst (loop body greedy k n), n)
            else let '(code, e) := loop body greedy k (S n) in (prefer greedy e k :: code, n)
        | S j =>
            let '(code, e) := loop body greedy k n in
            let '(code', e') := copies body j e (n + List.length code)%nat in
            (code ++ code', e')
        end
    end.
  (** [Compiler::c]; [g] is the number of the first group. External crate, src/expand/mod.rs:72,117. *)
  Fixpoint compile (r : re) (g : nat) : compiler := fun k n =>
    match r with
    | REmpty => ([], k)
    | RLit c => ([IOne (N.eqb c) k], n)
    | RDot => ([IOne (fun c => negb (c =? 10)) k], n)
    | RClass s => ([IOne (class_has digit space word s) k], n)
    | RLook l => ([ILook (look_holds l) k], n)
    | RRep min max greedy r => repetition (compile r g) (surely_some r) min max greedy k n
    | RCap _ r =>
        let '(code, e) := compile r (S g) n (S (S n)) in
        (ISave (S (2 * g)) k :: ISave (2 * g) e :: code, S n)
    | RCat a b =>
        let '(code, e) := compile b (g + List.length (groups a))%nat k n in
        let '(code', e') := compile a g e (n + List.length code)%nat in
        (code ++ code', e')
    | RAlt a b =>
        let '(code, e) := compile a g k (S n) in
        let '(code', e') := compile b (g + List.length (groups a))%nat k (S n + List.length code)%nat in
        (ISplit e e' :: code ++ code', n)
    end.
  (** The automaton: the whole match is group 0. External crate, src/expand/mod.rs:72,117. *)
  Definition program (r : re) : list inst := IMatch :: fst (compile (RCap None r) 0%nat 0%nat 1%nat).
  (** Its first state. External crate, src/expand/mod.rs:72,117. *)
  Definition entry (r : re) : nat := snd (compile (RCap None r) 0%nat 0%nat 1%nat).
End Automaton.

Section Backtracker.
  Context (prog : list inst) (start : nat) (subject : str).

  (** Where groups start and end, [Option<NonMaxUsize>]s. External crate, src/expand/mod.rs:72,117. *)
  Definition slots := list (option nat).
  (** [slots[i] = v]. External crate, src/expand/mod.rs:72,117. *)
  Fixpoint set_slot (i : nat) (v : option nat) (l : slots) : slots :=
    match l, i with
    | [], _ => []
    | _ :: l, O => v :: l
    | x :: l, S i => x :: set_slot i v l
    end.
  (** [Frame]: a state to go on from, or a slot to restore. External crate, src/expand/mod.rs:72,117. *)
  Inductive task := Step (pc at_ : nat) | Restore (slot : nat) (old : option nat).
  (** The start of the search that goes on, what is left to do, the slots, where the search has been ([Visited], a set
      of bits in the crate). External crate, src/expand/mod.rs:72,117. *)
  Record search_state := mkstate { bt_at : nat; bt_stack : list task; bt_slots : slots; bt_visited : list (nat * nat) }.

  (** [Visited::insert] says no. External crate, src/expand/mod.rs:72,117. *)
  Definition visited (pc at_ : nat) (v : list (nat * nat)) : bool :=
    existsb (fun x => Nat.eqb (fst x) pc && Nat.eqb (snd x) at_) v.
  (** One turn of the loops of [search_imp], [backtrack] and [step]: the next state of the search, or its result.
      External crate, src/expand/mod.rs:72,117. *)
  Definition turn (c : search_state) : search_state + option slots :=
    let '(mkstate from stack sl vis) := c in
    match stack with
    | [] => if Nat.ltb from (List.length subject) then inl (mkstate (S from) [Step start (S from)] sl vis) else inr None
    | Restore i old :: stack => inl (mkstate from stack (set_slot i old sl) vis)
    | Step pc p :: stack =>
        if visited pc p vis then inl (mkstate from stack sl vis)
        else
          let go frames sl := inl (mkstate from (frames ++ stack) sl ((pc, p) :: vis)) in
          match nth_error prog pc with
          | Some (IOne test next) =>
              match nth_error subject p with
              | Some c => if test c then go [Step next (S p)] sl else go [] sl
              | None => go [] sl
              end
          | Some (ILook holds next) => if holds (firstn p subject) (skipn p subject) then go [Step next p] sl else go [] sl
          | Some (ISplit a b) => go [Step a p; Step b p] sl
          | Some (ISave i next) => go [Step next p; Restore i (nth i sl None)] (set_slot i (Some p) sl)
          | Some IMatch => inr (Some sl)
          | Some IFail => go [] sl
          | None => inl (mkstate from stack sl vis)
          end
    end.
  (** So many turns at most; [None]: they were not enough. External crate, src/expand/mod.rs:72,117. *)
  Fixpoint turns (n : nat) (c : search_state) : option (option slots) :=
    match n with
    | O => None
    | S n => match turn c with inl c => turns n c | inr x => Some x end
    end.
  (** The text of a group. [Captures::get], external crate, src/expand/mod.rs:72,117. *)
  Definition group_at (sl : slots) (i : nat) : option str :=
    match nth (2 * i) sl None, nth (S (2 * i)) sl None with
    | Some a, Some b => Some (firstn (b - a) (skipn a subject))
    | _, _ => None
    end.
  (** A search from the start of the subject, of an automaton with [g] groups. External crate,
      src/expand/mod.rs:72,117. *)
  Definition backtrack (n g : nat) : option (option (list (option str))) :=
    option_map (option_map (fun sl => map (group_at sl) (seq 0 g)))
      (turns n (mkstate 0 [Step start 0] (repeat None (2 * g)) [])).
End Backtracker.

(** [Regex::captures] in so many turns. Of a [Regex] made at src/expand/mod.rs:72,117. *)
Definition automaton_captures (digit space word : char -> bool) (r : re) (s : str) (n : nat) :
    option (option (list (option str))) :=
  backtrack (program digit space word r) (entry digit space word r) s n (S (List.length (groups r))).
