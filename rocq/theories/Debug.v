(** [Debug] as derived in src/ast.rs, src/parse.rs and src/expand/mod.rs: what [{:?}] and [{:#?}] print. How the standard
    library prints (strings, numbers, [debug_tuple], [debug_struct], [debug_list], [PadAdapter]) is modelled from its
    documentation; its source is not in the repository. *)
From Verif Require Export Expand.
Require Import HexadecimalString HexadecimalN.

(** The calls a [Debug] makes: of strings, numbers, [()], [debug_tuple] (without fields: the name only), [debug_struct],
    [debug_list]. As derived at src/ast.rs:33,70,110,142,159,168, src/parse.rs:560 and src/expand/mod.rs:137,153. *)
Inductive dbg :=
| DStr (s : str)
| DNum (n : N)
| DUnit
| DTuple (name : str) (l : list dbg)
| DStruct (name : str) (l : list (str * dbg))
| DList (l : list dbg).

Section Text.
  Context (printable : char -> bool).
  (** The number of an escaped char. [char::escape_unicode] of the standard library, as src/ast.rs:26 is printed. *)
  Definition hex_digits (n : N) : str := s_ (HexadecimalString.NilZero.string_of_uint (N.to_hex_uint n)).
  (** A char within a string. [char::escape_debug_ext], standard library, as src/ast.rs:26 is printed; which chars are
      printed as they are is a parameter. *)
  Definition escape (c : char) : str :=
    if c =? 0 then s_ "\0" else if c =? 9 then s_ "\t" else if c =? 13 then s_ "\r" else if c =? 10 then s_ "\n"
    else if c =? c_ "\" then s_ "\\" else if c =? 34 then [c_ "\"; 34]
    else if printable c then [c] else s_ "\u{" ++ hex_digits c ++ s_ "}".
  (** [Debug for str], standard library, as src/ast.rs:26 is printed. *)
  Definition quoted (s : str) : str := 34 :: List.concat (map escape s) ++ [34].
  (** With commas between. [DebugInner], standard library, behind the derives at src/ast.rs:33-178. *)
  Definition commas (l : list str) : str :=
    match l with [] => [] | x :: l => x ++ List.concat (map (fun y => s_ ", " ++ y) l) end.
  (** [{:?}] of what is derived at src/ast.rs:33-178, src/parse.rs:560, src/expand/mod.rs:137,153. *)
  Fixpoint compact (d : dbg) : str :=
    match d with
    | DStr s => quoted s
    | DNum n => dec n
    | DUnit => s_ "()"
    | DTuple name [] => name
    | DTuple name l => name ++ s_ "(" ++ commas (map compact l) ++ s_ ")"
    | DStruct name [] => name
    | DStruct name l => name ++ s_ " { " ++ commas (map (fun x => fst x ++ s_ ": " ++ compact (snd x)) l) ++ s_ " }"
    | DList l => s_ "[" ++ commas (map compact l) ++ s_ "]"
    end.
  (** [PadAdapter]: four blanks at the beginning of lines; the flag says that one begins. Standard library, behind the
      derives at src/ast.rs:33-178. *)
  Fixpoint padded (begins : bool) (t : str) : str :=
    match t with
    | [] => []
    | c :: t => (if begins then s_ "    " else []) ++ c :: padded (c =? 10) t
    end.
  (** A field on lines of its own. [DebugInner], standard library, behind the derives at src/ast.rs:33-178. *)
  Definition lined (t : str) : str := padded true (t ++ s_ "," ++ [10]).
  (** [{:#?}] of what is derived at src/ast.rs:33-178, src/parse.rs:560, src/expand/mod.rs:137,153. *)
  Fixpoint pretty (d : dbg) : str :=
    match d with
    | DStr s => quoted s
    | DNum n => dec n
    | DUnit => s_ "()"
    | DTuple name [] => name
    | DTuple name l => name ++ s_ "(" ++ [10] ++ List.concat (map (fun x => lined (pretty x)) l) ++ s_ ")"
    | DStruct name [] => name
    | DStruct name l => name ++ s_ " {" ++ [10] ++ List.concat (map (fun x => lined (fst x ++ s_ ": " ++ pretty (snd x))) l) ++ s_ "}"
    | DList [] => s_ "[]"
    | DList l => s_ "[" ++ [10] ++ List.concat (map (fun x => lined (pretty x)) l) ++ s_ "]"
    end.
  (** [{:?}] or, with [#], [{:#?}], of what is derived at src/ast.rs:33-178, src/parse.rs:560, src/expand/mod.rs:137,153. *)
  Definition debug_text (alternate : bool) (d : dbg) : str := if alternate then pretty d else compact d.
End Text.

(** [Debug] of [LocatedSpan] (nom_locate, derived), the [Spanned] of src/ast.rs:26. *)
Definition debug_span (i : span) : dbg :=
  DStruct (s_ "LocatedSpan") [(s_ "offset", DNum (off i)); (s_ "line", DNum (line i)); (s_ "fragment", DStr (frag i)); (s_ "extra", DUnit)].

Section Derived.
  Context {I : Type} (input : I -> dbg).
  (** src/ast.rs:159-160 *)
  Definition debug_optional (o : optional I) : dbg := DTuple (s_ "Optional") [input (opt_input o)].
  (** src/ast.rs:168-178 *)
  Definition debug_parameter (p : parameter I) : dbg :=
    DStruct (s_ "Parameter") [(s_ "input", input (par_input p)); (s_ "id", DNum (par_id p))].
  (** src/ast.rs:142-151 *)
  Definition debug_alternative (a : alternative I) : dbg :=
    match a with
    | AltOptional o => DTuple (s_ "Optional") [debug_optional o]
    | AltText i => DTuple (s_ "Text") [input i]
    end.
  (** src/ast.rs:102,110-111 *)
  Definition debug_alternation (a : alternation I) : dbg :=
    DTuple (s_ "Alternation") [DList (map (fun x => DList (map debug_alternative x)) a)].
  (** src/ast.rs:70-96 *)
  Definition debug_single_expression (x : single_expression I) : dbg :=
    match x with
    | ExAlternation a => DTuple (s_ "Alternation") [debug_alternation a]
    | ExOptional o => DTuple (s_ "Optional") [debug_optional o]
    | ExParameter p => DTuple (s_ "Parameter") [debug_parameter p]
    | ExText i => DTuple (s_ "Text") [input i]
    | ExWhitespaces i => DTuple (s_ "Whitespaces") [input i]
    end.
  (** src/ast.rs:33-34 *)
  Definition debug_expression (e : expression I) : dbg := DTuple (s_ "Expression") [DList (map debug_single_expression e)].
  (** nom's [ErrorKind], derived; used at src/parse.rs:681. *)
  Definition debug_kind (k : error_kind) : dbg :=
    DTuple (match k with
      | KTag => s_ "Tag" | KOneOf => s_ "OneOf" | KAlt => s_ "Alt" | KMany0 => s_ "Many0" | KMany1 => s_ "Many1"
      | KSeparatedList => s_ "SeparatedList" | KTakeWhile1 => s_ "TakeWhile1" | KVerify => s_ "Verify" | KEscaped => s_ "Escaped"
      end) [].
  (** src/parse.rs:560-697. Simplified: what is [Needed] is left out of [error], here it is [Unknown]. *)
  Definition debug_parse_error (e : error I) : dbg :=
    match e with
    | NestedParameter i => DTuple (s_ "NestedParameter") [input i]
    | OptionalInParameter i => DTuple (s_ "OptionalInParameter") [input i]
    | UnfinishedParameter i => DTuple (s_ "UnfinishedParameter") [input i]
    | NestedOptional i => DTuple (s_ "NestedOptional") [input i]
    | ParameterInOptional i => DTuple (s_ "ParameterInOptional") [input i]
    | EmptyOptional i => DTuple (s_ "EmptyOptional") [input i]
    | AlternationInOptional i => DTuple (s_ "AlternationInOptional") [input i]
    | UnfinishedOptional i => DTuple (s_ "UnfinishedOptional") [input i]
    | EmptyAlternation i => DTuple (s_ "EmptyAlternation") [input i]
    | OnlyOptionalInAlternation i => DTuple (s_ "OnlyOptionalInAlternation") [input i]
    | UnescapedReservedCharacter i => DTuple (s_ "UnescapedReservedCharacter") [input i]
    | EscapedNonReservedCharacter i => DTuple (s_ "EscapedNonReservedCharacter") [input i]
    | EscapedEndOfLine i => DTuple (s_ "EscapedEndOfLine") [input i]
    | Other i k => DTuple (s_ "Other") [input i; debug_kind k]
    | ENeeded => DTuple (s_ "Needed") [DTuple (s_ "Unknown") []]
    end.
  (** src/expand/mod.rs:153-176; [err] is the [regex_syntax::Error]'s. [None]: not an error of the code. *)
  Definition debug_param_error (err : dbg) (e : param_error I) : option dbg :=
    match e with
    | NotFound i => Some (DTuple (s_ "NotFound") [input i])
    | RenameRegexGroup i re => Some (DStruct (s_ "RenameRegexGroup") [(s_ "parameter", input i); (s_ "re", DStr re); (s_ "err", err)])
    | Unmodelled => None
    end.
  (** src/expand/mod.rs:137-150. [None]: not an error of the code, or [Regex], whose error prints itself in its own way. *)
  Definition debug_error (err : dbg) (x : expanded I) : option dbg :=
    match x with
    | XParsing e => Some (DTuple (s_ "Parsing") [debug_parse_error e])
    | XExpansion e => option_map (fun d => DTuple (s_ "Expansion") [d]) (debug_param_error err e)
    | _ => None
    end.
End Derived.
