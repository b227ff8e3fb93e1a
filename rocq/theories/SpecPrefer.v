(** Specification: which of its readings a search takes, when an expression has custom parameters. The order of a
    custom parameter is the order in which a search with its matcher alone tries the pieces; it may depend on
    what stands before and after. *)
From Verif Require Export SpecHir SpecNormal Compiled.

(** A piece of the subject with the captures in it. *)
Definition captured : Type := str * list (option str).
(** [y] comes first in [l], [y'] later. *)
Definition before (y y' : captured) (l : list captured) : Prop :=
  exists l1 l2, l = l1 ++ y :: l2 /\ ~ In y' l1 /\ y' <> y /\ In y' l2.

Section Readings.
  Context {I : Type} (text : I -> str).
  (** The type of a parameter: [param p before piece after captures]. *)
  Context (param : parameter I -> str -> str -> str -> list (option str) -> Prop).
  (** [prefers x before rest y y']: in front of [rest], the element [x] tries [y] earlier than [y']. *)
  Context (prefers : single_expression I -> str -> str -> captured -> captured -> Prop).
  (** Each element with the piece that it is read as. *)
  Inductive read_in : expression I -> str -> str -> list captured -> Prop :=
  | read_nil pre : read_in [] pre [] []
  | read_cons x e pre p v t l :
      single_means text (fun q s v => param q pre s t v) x p v ->
      read_in e (pre ++ p) t l -> read_in (x :: e) pre (p ++ t) ((p, v) :: l).
  (** The first piece where two readings differ decides. *)
  Inductive better_in : expression I -> str -> str -> list captured -> list captured -> Prop :=
  | better_in_here x e pre s y l y' l' : prefers x pre s y y' -> better_in (x :: e) pre s (y :: l) (y' :: l')
  | better_in_later x e pre p v t l l' :
      better_in e (pre ++ p) t l l' -> better_in (x :: e) pre (p ++ t) ((p, v) :: l) ((p, v) :: l').
  Definition best_in (e : expression I) (pre s : str) (l : list captured) : Prop :=
    read_in e pre s l /\ forall l', read_in e pre s l' -> l' = l \/ better_in e pre s l l'.
End Readings.

Section Custom.
  Context (digits spaces words : ranges).
  (** The pieces that a search with the matcher [t] alone tries in front of [s], in order. A matcher without
      capturing groups (outside of repetitions) is a capturing group itself. *)
  Definition tries (t pre s : str) : list captured :=
    match regex_new t with
    | Done r =>
        map (fun w => (w_mid w, if has_outer r then w_caps w else Some (w_mid w) :: w_caps w))
          (ways (in_ranges digits) (in_ranges spaces) (in_ranges words) (compiled digits spaces words r) pre s)
    | _ => []
    end.
  Context {I : Type} (text : I -> str) (get : provider I).
  Definition tried (p : parameter I) (pre m post : str) (v : list (option str)) : Prop :=
    match get (par_input p) with
    | None => typed (in_ranges digits) (in_ranges spaces) (text (par_input p)) m v
    | Some t => In (m, v) (tries t pre (m ++ post))
    end.
  (** The matcher of an element, if it is a custom parameter. *)
  Definition custom (x : single_expression I) : option str :=
    match x with ExParameter p => get (par_input p) | _ => None end.
  Definition custom_prefers (x : single_expression I) (pre s : str) (y y' : captured) : Prop :=
    match custom x with
    | Some t => before y y' (tries t pre s)
    | None => hir_prefers text x (fst y) (fst y')
    end.
  (** A matcher that is printed exactly: see C81. *)
  Definition exactly (wrap : bool) (r : re) : Prop :=
    tame digits spaces words r /\
    (has_outer r = true ->
      counted (translate digits spaces words r) = true /\ (wrap = true \/ no_nested (translate digits spaces words r) = true)).
End Custom.
