(** Specification: the expression a printed tree shows. *)
From Verif Require Export Debug SpecAst.

(** A span with this fragment. *)
Inductive shows_fragment (t : str) : dbg -> Prop :=
| fragment_shown o l : shows_fragment t (DStruct (s_ "LocatedSpan")
    [(s_ "offset", DNum o); (s_ "line", DNum l); (s_ "fragment", DStr t); (s_ "extra", DUnit)]).
Inductive shows_optional : dbg -> str -> Prop :=
| optional_shown d t : shows_fragment t d -> shows_optional (DTuple (s_ "Optional") [d]) (s_ "(" ++ t ++ s_ ")").
Inductive shows_alternative : dbg -> str -> Prop :=
| alternative_shown d t : shows_optional d t -> shows_alternative (DTuple (s_ "Optional") [d]) t
| text_shown d t : shows_fragment t d -> content text_special t -> shows_alternative (DTuple (s_ "Text") [d]) t.
Inductive shows_branch : dbg -> str -> Prop :=
| branch_shown l ts : Forall2 shows_alternative l ts -> shows_branch (DList l) (List.concat ts).
(** The parameters shown are numbered from [n] to [m]. *)
Inductive shows_single (n : N) : dbg -> str -> N -> Prop :=
| single_alternation_shown l ts : Forall2 shows_branch l ts ->
    shows_single n (DTuple (s_ "Alternation") [DTuple (s_ "Alternation") [DList l]]) (join (s_ "/") ts) n
| single_optional d t : shows_optional d t -> shows_single n (DTuple (s_ "Optional") [d]) t n
| single_parameter d t : shows_fragment t d ->
    shows_single n (DTuple (s_ "Parameter") [DStruct (s_ "Parameter") [(s_ "input", d); (s_ "id", DNum n)]]) (s_ "{" ++ t ++ s_ "}") (n + 1)
| single_text d t : shows_fragment t d -> content text_special t -> shows_single n (DTuple (s_ "Text") [d]) t n
| single_whitespaces d t : shows_fragment t d -> Forall (fun c => c = c_ " ") t -> shows_single n (DTuple (s_ "Whitespaces") [d]) t n.
Inductive shows_all : N -> list dbg -> str -> Prop :=
| shows_none n : shows_all n [] []
| shows_more n m d l t s : shows_single n d t m -> shows_all m l s -> shows_all n (d :: l) (t ++ s).
Inductive shows : dbg -> str -> Prop :=
| expression_shown l s : shows_all 0 l s -> shows (DTuple (s_ "Expression") [DList l]) s.
