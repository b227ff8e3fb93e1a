(** What the nesting limit means for an expression. *)
From Verif Require Export Nest SpecParams SpecSyntax.

Section Limits.
  Context (limit : nat) (digits spaces words : ranges) (to_string : hir -> str) (get : provider span).
  (** What stands between the parentheses put around the matcher [v], a regex [r]. *)
  Definition between (p : parameter span) (v : str) (r : re) : str :=
    let h := translate digits spaces words r in
    if contains v (c_ "(") && has_capture_groups h then to_string (rename_capture_groups h (par_id p)) else v.
  (** Each matcher is a regex, and is printed as one. *)
  Definition regexes (p : parameter span) : Prop :=
    match get (par_input p) with
    | None => built_in (frag (par_input p))
    | Some v => exists r r', regex_new v = Done r /\ parse_syntax (between p v r) = Done r'
    end.
  (** A matcher that is itself nested too deep to be looked at for groups. *)
  Definition too_deep (p : parameter span) : Prop :=
    exists v d, get (par_input p) = Some v /\ In (c_ "(") v /\ nest v = Some d /\ (limit < d)%nat.
  (** A matcher that is so with its parentheses, in the concatenation that the expression is. *)
  Definition room (p : parameter span) : Prop :=
    forall v r d, get (par_input p) = Some v -> regex_new v = Done r -> nest (between p v r) = Some d -> (d + 2 <= limit)%nat.
End Limits.

(** ** How deep a regex is nested, by the grammar of SpecSyntax.v *)
(** Several parts are one level more than the deepest of them. *)
Definition together (l : list nat) : nat := match l with [] => 0 | [d] => d | _ => S (list_max l) end.
(** Of [t], which is an atom, an atom with repetitions, a sequence, alternatives: the depth, the depths of the parts. *)
Inductive deep_atom : str -> nat -> Prop :=
| da_literal c : ~ In c (s_ "()|[?*+{\.^$") -> deep_atom [c] 0
| da_sign t : In t [s_ "."; s_ "^"; s_ "$"; s_ "\A"; s_ "\z"; s_ "\b"; s_ "\B"] -> deep_atom t 0
| da_escaped t d : char_escape t d -> deep_atom (c_ "\" :: t) 0
| da_perl c i : perl_class c i -> deep_atom [c_ "\"; c] 0
| da_class_one t n i : class_text t (mkClass n [i]) -> deep_atom t 1
| da_class t k : class_text t k -> List.length (cl_items k) <> 1%nat -> deep_atom t 2
| da_group q k t l : opens q k -> deep_branches t l -> deep_atom (q ++ t ++ s_ ")") (S (together l))
with deep_repeated : str -> nat -> bool -> Prop :=
| dr_atom t d : deep_atom t d -> deep_repeated t d false
| dr_greedy t d o op min max : deep_repeated t d o -> operator op min max -> (o = true -> op <> s_ "?") ->
    deep_repeated (t ++ op) (S d) true
| dr_lazy t d o op min max : deep_repeated t d o -> operator op min max -> (o = true -> op <> s_ "?") ->
    deep_repeated (t ++ op ++ s_ "?") (S d) false
with deep_parts : str -> list nat -> Prop :=
| dp_none : deep_parts [] []
| dp_more t d o u l : deep_repeated t d o -> deep_parts u l -> deep_parts (t ++ u) (d :: l)
with deep_branches : str -> list nat -> Prop :=
| db_one t l : deep_parts t l -> deep_branches t [together l]
| db_more t l u k : deep_parts t l -> deep_branches u k -> deep_branches (t ++ s_ "|" ++ u) (together l :: k).
Definition nests (t : str) (d : nat) : Prop := exists l, deep_branches t l /\ d = together l.
