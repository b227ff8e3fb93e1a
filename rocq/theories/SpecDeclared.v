(** Specification: [Debug] as derived from the declarations of the error types. *)
From Verif Require Export Debug Source.

Section Declared.
  Context {I : Type} (input : I -> dbg) (err : dbg).
  (** What a field of a type is printed as. A [regex::Error] prints itself in its own way. *)
  Definition prints_type (t : ty) (d : dbg) : Prop :=
    match t with
    | TyInput => exists i, d = input i
    | TyKind => exists k, d = debug_kind k
    | TyNeeded => d = DTuple (s_ "Unknown") []
    | TyParse => exists e, d = debug_parse_error input e
    | TyParameter => exists e, debug_param_error input err e = Some d
    | TyRegex => False
    | TyString => exists s, d = DStr s
    | TySyntax => d = err
    end.
  (** The name of the variant and its fields, in order, with their names if they have any. *)
  Definition prints_variant (v : variant) (d : dbg) : Prop :=
    match d with
    | DTuple n l => n = vr_name v /\ Forall2 (fun f x => fd_name f = None /\ prints_type (fd_type f) x) (vr_fields v) l
    | DStruct n l => n = vr_name v /\ Forall2 (fun f x => fd_name f = Some (fst x) /\ prints_type (fd_type f) (snd x)) (vr_fields v) l
    | _ => False
    end.
  Definition prints_one_of (vs : list variant) (d : dbg) : Prop := exists v, In v vs /\ prints_variant v d.
End Declared.
