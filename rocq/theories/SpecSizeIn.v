(** Specification: expressions with custom parameters by how much they match. *)
From Verif Require Export SpecSize SpecParams SpecScalar.

Section Spec.
  Context (digits spaces words : ranges) {I : Type} (text : I -> str) (get : provider I).
  Notation rm := (Regex.rm (in_ranges digits) (in_ranges spaces) (in_ranges words)).

  (** Elements that may stand for nothing, if there is nothing around either. *)
  Definition custom_vanishes (x : single_expression I) : Prop :=
    match x with
    | ExOptional _ => True
    | ExParameter p =>
        match get (par_input p) with
        | None => text (par_input p) = []
        | Some t => exists r c, regex_new t = Done r /\ rm r [] [] [] c
        end
    | _ => False
    end.
  (** The regex matches [m] wherever it stands. *)
  Definition anywhere (r : re) (m : str) : Prop := rust_string m /\ forall pre post, exists c, rm r pre m post c.
  Definition satisfiable (p : parameter I) : Prop :=
    forall t, get (par_input p) = Some t -> exists r m, regex_new t = Done r /\ anywhere r m.
  Definition unbounded (p : parameter I) : Prop :=
    forall t, get (par_input p) = Some t -> exists r, regex_new t = Done r /\ forall k, exists m, (k <= List.length m)%nat /\ anywhere r m.
  (** The parameter has a custom matcher, and that matches no more than [k] chars. *)
  Definition bounded (k : nat) (p : parameter I) : Prop :=
    exists t r, get (par_input p) = Some t /\ regex_new t = Done r /\
      forall pre m post c, rust_string m -> rm r pre m post c -> (List.length m <= k)%nat.
End Spec.
