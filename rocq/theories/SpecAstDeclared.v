(** Specification: the types of src/ast.rs as they are declared, and the values of a type as the derived [Debug] shows them. *)
From Verif Require Export Debug.

(** What the field of a declaration is declared to be. *)
Inductive field_type :=
| FInput
| FUsize
| FVec (t : field_type)
| FNamed (name : str).
(** A variant, or a struct: its name and its fields, with their names if they have any. *)
Inductive shape :=
| Unnamed (name : str) (fields : list field_type)
| Named (name : str) (fields : list (str * field_type)).
(** The types of src/ast.rs:33-34,70-96,110-111,142-151,159-160,168-178, with [SingleAlternation] (src/ast.rs:102) written out. *)
Definition ast_types : list (str * list shape) := [
  (s_ "Expression", [Unnamed (s_ "Expression") [FVec (FNamed (s_ "SingleExpression"))]]);
  (s_ "SingleExpression", [
    Unnamed (s_ "Alternation") [FNamed (s_ "Alternation")];
    Unnamed (s_ "Optional") [FNamed (s_ "Optional")];
    Unnamed (s_ "Parameter") [FNamed (s_ "Parameter")];
    Unnamed (s_ "Text") [FInput];
    Unnamed (s_ "Whitespaces") [FInput]]);
  (s_ "Alternation", [Unnamed (s_ "Alternation") [FVec (FVec (FNamed (s_ "Alternative")))]]);
  (s_ "Alternative", [Unnamed (s_ "Optional") [FNamed (s_ "Optional")]; Unnamed (s_ "Text") [FInput]]);
  (s_ "Optional", [Unnamed (s_ "Optional") [FInput]]);
  (s_ "Parameter", [Named (s_ "Parameter") [(s_ "input", FInput); (s_ "id", FUsize)]])].

(** The values of a type of [ast_types]. *)
Inductive value_of {I : Type} (input : I -> dbg) : field_type -> dbg -> Prop :=
| value_input i : value_of input FInput (input i)
| value_usize n : value_of input FUsize (DNum n)
| value_vec t l : Forall (value_of input t) l -> value_of input (FVec t) (DList l)
| value_unnamed type shapes name fields l : In (type, shapes) ast_types -> In (Unnamed name fields) shapes ->
    Forall2 (value_of input) fields l -> value_of input (FNamed type) (DTuple name l)
| value_named type shapes name fields l : In (type, shapes) ast_types -> In (Named name fields) shapes ->
    Forall2 (fun f x => fst f = fst x /\ value_of input (snd f) (snd x)) fields l -> value_of input (FNamed type) (DStruct name l).
