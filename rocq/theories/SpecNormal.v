(** Specification: what is left of an [Hir] without the names of its groups, and which of them [Display] prints exactly. *)
From Verif Require Export SpecParams.

(** Without the names of the groups. *)
Fixpoint nameless (h : hir) : hir :=
  match h with
  | HEmpty | HLit _ | HClass _ | HLook _ => h
  | HRep a b g h => HRep a b g (nameless h)
  | HCap i _ h => HCap i None (nameless h)
  | HCat l => HCat (map nameless l)
  | HAlt l => HAlt (map nameless l)
  end.
(** No lazy repetition with an exact count: [Display] leaves out that it is lazy. *)
Fixpoint counted (h : hir) : bool :=
  match h with
  | HEmpty | HLit _ | HClass _ | HLook _ => true
  | HRep a b g h => (g || negb (opt_eqb N.eqb b (Some a))) && counted h
  | HCap _ _ h => counted h
  | HCat l | HAlt l => forallb counted l
  end.
