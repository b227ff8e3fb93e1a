(** Specification: alternations whose branches all begin with the same optional, after the same text if any. *)
From Verif Require Export SpecMatch SpecSame.

Definition shared_optional (branches : list (list piece)) : Prop :=
  exists t o, Forall (fun b => exists l, b = map Char t ++ Maybe o :: l) branches.
(** An expression without such an alternation. *)
Definition unshared (e : expression str) : Prop :=
  forall branches, In (OneOf branches) (unspelled e) -> ~ shared_optional branches.

(** ** The order in which the readings of an alternation are tried, if what all branches begin with is tried
    first *)
Definition each_with (l l' : list str) : list str := flat_map (fun p => map (app p) l') l.
(** What a branch stands for: optionals first with, then without their text. *)
Fixpoint candidates (b : list piece) : list str :=
  match b with
  | [] => [[]]
  | Char c :: b => each_with [[c]] (candidates b)
  | Maybe t :: b => each_with [t; []] (candidates b)
  end.
(** All [branches] begin with [p], which the [rests] follow, and with nothing longer. *)
Definition all_begin (p : list piece) (rests branches : list (list piece)) : Prop :=
  branches = map (app p) rests /\ ~ exists x, Forall (fun r => exists r', r = x :: r') rests.
Definition hir_prefers {I} (text : I -> str) (x : single_expression I) (p p' : str) : Prop :=
  match x with
  | ExAlternation a =>
      exists beginning rests, all_begin beginning rests (map (flat_map pieces) (map_alternation text a)) /\
        earlier p p' (each_with (candidates beginning) (flat_map candidates rests))
  | _ => prefers text x p p'
  end.
