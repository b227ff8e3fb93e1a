(** Specification: the regexes of the built-in parameters as custom matchers. *)
From Verif Require Export SpecPrefer.

(** As documented, without the group around; the groups of [{string}] without names. *)
Definition spelled (n : str) : option str :=
  if str_eqb n (s_ "int") then Some (s_ "(?:-?\d+)|(?:\d+)")
  else if str_eqb n (s_ "float") then Some (s_ "[+-]?(?:inf|NaN|(?:\d+|\d+\.\d*|\d*\.\d+)(?:[eE][+-]?\d+)?)")
  else if str_eqb n (s_ "word") then Some (s_ "[^\s]+")
  else if str_eqb n (s_ "string") then Some (s_ """([^""\\]*(?:\\.[^""\\]*)*)""|'([^'\\]*(?:\\.[^'\\]*)*)'")
  else if str_eqb n [] then Some (s_ ".*")
  else None.
(** A provider that spells some of the built-in parameters, and knows no others. *)
Definition spells {I} (text : I -> str) (get : provider I) : Prop :=
  forall i, get i = None \/ get i = spelled (text i).

(** Two providers whose answers for a parameter cannot be told apart by a search: the same pieces are tried, in
    the same order. *)
Definition alike (digits spaces words : ranges) {I} (text : I -> str) (get get' : provider I) (p : parameter I) : Prop :=
  (forall pre m post v, tried digits spaces words text get p pre m post v <-> tried digits spaces words text get' p pre m post v) /\
  forall pre s y y', custom_prefers digits spaces words text get (ExParameter p) pre s y y' <->
    custom_prefers digits spaces words text get' (ExParameter p) pre s y y'.
