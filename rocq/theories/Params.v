(** Model of src/expand/parameters.rs and [Expression::regex_with_parameters]. *)
From Verif Require Export Hir.

(** src/expand/parameters.rs:55-76, [Provider::get]; the elements of a value are its chars. *)
Definition provider (I : Type) := I -> option str.

(** src/expand/parameters.rs:78-96. A [HashMap] is the list of its entries in the order [iter] visits
    them (any order). *)
Definition hash_map := list (str * str).
(** src/expand/parameters.rs:88-95 [Provider::get] of a [HashMap]. *)
Definition hash_map_get {I} (elements : I -> str) (m : hash_map) : provider I :=
  fun input =>
    (fix find_map (l : hash_map) : option str :=
       match l with
       | [] => None
       | (k, v) :: l' => if chars_eq k (elements input) then Some v else find_map l'
       end) m.

Section Expand.
  Context {I : Type} (elements : I -> str).
  (** [regex_syntax]: the Unicode tables, [Display for Hir]. *)
  Context (digits spaces words : ranges) (to_string : hir -> str).
  Context (get : provider I).

  (** src/expand/parameters.rs:179-255 *)
  Definition expand_custom (p : parameter I) : list (item I) :=
    match get (par_input p) with
    | None => expand_parameter elements p
    | Some v =>
        let plain := ok (s_ "(" ++ v ++ s_ ")") in
        if contains v (c_ "(") then
          match regex_new v with
          | Done r =>
              let h := translate digits spaces words r in
              if has_capture_groups h
              then ok (s_ "(?:" ++ owned (to_string (rename_capture_groups h (par_id p))) ++ s_ ")")
              else plain
          | Invalid => [IErr (RenameRegexGroup (par_input p) v)]
          | Unsupported => [IErr Unmodelled]
          end
        else plain
    end.

  (** src/expand/parameters.rs:147-168 *)
  Definition expand_single_custom (x : single_expression I) : list (item I) :=
    match x with
    | ExParameter p => expand_custom p
    | _ => expand_single elements x
    end.

  (** src/expand/parameters.rs:98-123 *)
  Definition expand_expression_custom (e : expression I) : list (item I) :=
    ok (s_ "^") ++ flat_map expand_single_custom e ++ ok (s_ "$").
End Expand.

(** src/expand/mod.rs:103-130, [Expression::regex_with_parameters] and [with_parameters]. *)
Definition regex_with_parameters (digits spaces words : ranges) (to_string : hir -> str)
    (get : provider span) (input : str) : expanded span :=
  regex_by (expand_expression_custom iter_elements digits spaces words to_string get) input.
