(** Which of its readings a search takes, when an expression can be read in several ways. Independent
    of the expansion, of the regex model and of the search. *)
From Verif Require Export SpecExpand.

(** [p] comes first in [l], [p'] later. *)
Definition earlier (p p' : str) (l : list str) : Prop :=
  exists l1 l2, l = l1 ++ p :: l2 /\ ~ In p' l1 /\ p' <> p /\ In p' l2.

Section Preference.
  Context {I : Type} (text : I -> str).
  Definition optional_candidates (o : optional I) : list str := [unescape (text (opt_input o)); []].
  Definition alternative_candidates (a : alternative I) : list str :=
    match a with
    | AltOptional o => optional_candidates o
    | AltText t => [unescape (text t)]
    end.
  Fixpoint branch_candidates (b : single_alternation I) : list str :=
    match b with
    | [] => [[]]
    | a :: b => flat_map (fun p => map (app p) (branch_candidates b)) (alternative_candidates a)
    end.
  (** What an alternation stands for: branch by branch, optionals first with and then without their
      text. *)
  Definition alternation_candidates (a : alternation I) : list str := flat_map branch_candidates a.

  Definition shorter (p p' : str) : Prop := (List.length p < List.length p')%nat.
  Definition point : char := c_ ".".
  (** The piece [p] is preferred to [p'] for the element [x]: the longer one for int, word and the
      anonymous parameter; for float one without a point to one with, else the longer one. *)
  Definition prefers (x : single_expression I) (p p' : str) : Prop :=
    match x with
    | ExText _ | ExWhitespaces _ => False
    | ExOptional o => earlier p p' (optional_candidates o)
    | ExAlternation a => earlier p p' (alternation_candidates a)
    | ExParameter q =>
        if list_eq_dec N.eq_dec (text (par_input q)) (s_ "string") then False
        else if list_eq_dec N.eq_dec (text (par_input q)) (s_ "float")
        then ~ In point p /\ In point p' \/ (In point p <-> In point p') /\ shorter p' p
        else shorter p' p
    end.
  Section By.
    Context (prefers : single_expression I -> str -> str -> Prop).
    (** The first piece where two readings differ decides. *)
    Inductive better_by : expression I -> list (str * list (option str)) -> list (str * list (option str)) -> Prop :=
    | better_here x e p v l p' v' l' : prefers x p p' -> better_by (x :: e) ((p, v) :: l) ((p', v') :: l')
    | better_later x e y l l' : better_by e l l' -> better_by (x :: e) (y :: l) (y :: l').

    Context (param : parameter I -> str -> list (option str) -> Prop).
    (** [l] is a reading of [s], and better than every other. *)
    Definition best_by (e : expression I) (s : str) (l : list (str * list (option str))) : Prop :=
      pieces text param e l /\ List.concat (map fst l) = s /\
      forall l', pieces text param e l' -> List.concat (map fst l') = s -> l' = l \/ better_by e l l'.
  End By.
  Definition best := best_by prefers.
End Preference.

(** The chars with a meaning in numbers are no digits (they are none in the Unicode table). *)
Definition plain_digits (digit : char -> bool) : Prop :=
  forall c, In c (s_ "+-.eEiN") -> digit c = false.
