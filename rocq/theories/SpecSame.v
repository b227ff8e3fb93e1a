(** Specification: an expression without its spelling, i.e. without escapes, without the division into texts and
    whitespace, and without the numbers of its parameters. *)
From Verif Require Export SpecAst SpecIter SpecExpand.

Inductive piece := Char (c : char) | Maybe (t : str).
Inductive part := Piece (x : piece) | OneOf (branches : list (list piece)) | Param (name : str).

Definition pieces (a : alternative str) : list piece :=
  match a with
  | AltText t => map Char (unescape t)
  | AltOptional o => [Maybe (unescape (opt_input o))]
  end.
Definition parts (x : single_expression str) : list part :=
  match x with
  | ExAlternation a => [OneOf (map (flat_map pieces) a)]
  | ExOptional o => [Piece (Maybe (unescape (opt_input o)))]
  | ExParameter p => [Param (par_input p)]
  | ExText t | ExWhitespaces t => map (fun c => Piece (Char c)) (unescape t)
  end.
Definition unspelled (e : expression str) : list part := flat_map parts e.

(** The regex of an expression without its spelling, its next parameter having the number [k]. *)
Definition piece_regex (x : piece) : str :=
  match x with Char c => quote c | Maybe t => s_ "(?:" ++ flat_map quote t ++ s_ ")?" end.
Inductive written : N -> list part -> str -> Prop :=
| written_end k : written k [] []
| written_piece k x l t : written k l t -> written k (Piece x :: l) (piece_regex x ++ t)
| written_one_of k a l t : written k l t ->
    written k (OneOf a :: l) (s_ "(?:" ++ join (s_ "|") (map (flat_map piece_regex) a) ++ s_ ")" ++ t)
| written_int k l t : written (k + 1) l t ->
    written k (Param (s_ "int") :: l) (s_ "((?:-?\d+)|(?:\d+))" ++ t)
| written_float k l t : written (k + 1) l t ->
    written k (Param (s_ "float") :: l) (s_ "([+-]?(?:inf|NaN|(?:\d+|\d+\.\d*|\d*\.\d+)(?:[eE][+-]?\d+)?))" ++ t)
| written_word k l t : written (k + 1) l t ->
    written k (Param (s_ "word") :: l) (s_ "([^\s]+)" ++ t)
| written_string k n l t : decimal k n -> written (k + 1) l t ->
    written k (Param (s_ "string") :: l)
      (s_ "(?:""(?P<__" ++ n ++ s_ "_0>[^""\\]*(?:\\.[^""\\]*)*)""|'(?P<__" ++ n ++ s_ "_1>[^'\\]*(?:\\.[^'\\]*)*)')" ++ t)
| written_anonymous k l t : written (k + 1) l t ->
    written k (Param [] :: l) (s_ "(.*)" ++ t).

(** Providers that look at the text of a name only, not at where it stands. *)
Definition blind (get : span -> option str) : Prop := forall i j, frag i = frag j -> get i = get j.
