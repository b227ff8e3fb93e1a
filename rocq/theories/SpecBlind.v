(** Specification: matchers that do not look around. *)
From Verif Require Export SpecParams.

Fixpoint blind (r : re) : Prop :=
  match r with
  | REmpty | RLit _ | RDot | RClass _ => True
  | RLook _ => False
  | RRep _ _ _ r | RCap _ r => blind r
  | RCat a b | RAlt a b => blind a /\ blind b
  end.
(** A provider that looks at names only. *)
Definition by_name (get : provider span) : Prop := forall i j, frag i = frag j -> get i = get j.
