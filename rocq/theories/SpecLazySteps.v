(** Specification of the cost of the expansion. *)
From Verif Require Export LazySteps SpecLazy.
Local Open Scope nat_scope.

(** The expressions, branches and pieces of branches of a tree. *)
Definition node_count_single {I} (x : single_expression I) : nat :=
  match x with
  | ExAlternation a => 1 + List.length a + List.length (List.concat a)
  | _ => 1
  end.
Fixpoint node_count {I} (e : expression I) : nat :=
  match e with [] => 0 | x :: e' => node_count_single x + node_count e' end.
(** [1 + 2 + ... + n]. *)
Fixpoint triangle (n : nat) : nat := match n with O => O | S k => S k + triangle k end.
(** Reading a text of which every char is searched from the start. *)
Definition reread (t : str) : nat := triangle (S (List.length t)).
(** The text an [OwnedChars] is made of in the expansion of a parameter, if there is one: that of [{string}],
    and the matcher with its groups renamed. *)
Definition copied_builtin {I} (elements : I -> str) (p : parameter I) : option str :=
  if str_eqb (elements (par_input p)) (s_ "string") then Some (string_regex (par_id p)) else None.
Definition copied {I} (elements : I -> str) digits spaces words to_string (get : provider I) (p : parameter I) : option str :=
  match get (par_input p) with
  | None => copied_builtin elements p
  | Some v =>
      if contains v (c_ "(") then
        match regex_new v with
        | Done r =>
            let h := translate digits spaces words r in
            if has_capture_groups h then Some (to_string (rename_capture_groups h (par_id p))) else None
        | _ => None
        end
      else None
  end.
Fixpoint rereads {I} (copy : parameter I -> option str) (e : expression I) : nat :=
  match e with
  | [] => 0
  | ExParameter p :: e' => match copy p with Some t => reread t | None => 0 end + rereads copy e'
  | _ :: e' => rereads copy e'
  end.
