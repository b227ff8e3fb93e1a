(** Model of src/combinator.rs. *)
From Verif Require Export Nom.

(** src/combinator.rs:18-35 [map_err]: applies [map] to the error. Panics and exhausted fuel are
    not errors and pass through. *)
Definition map_err {A} (p : parser A) (map : bad -> bad) : parser A := fun i =>
  match p i with
  | Ok r a => Ok r a
  | Bad BPanic => Bad BPanic
  | Bad BFuel => Bad BFuel
  | Bad b => Bad (map b)
  end.

(** [Ok((input.take_from(input.input_len()), input))], src/combinator.rs:69,98-101,126. *)
Definition whole (input : span) : result span :=
  match take_from input (input_len input) with
  | Some r => Ok r input
  | None => Bad BPanic
  end.

(** src/combinator.rs:47-128 [escaped0]: the [while] loop, on fuel. *)
Fixpoint escaped0_loop {A B} (fuel : nat) (normal : parser A) (control_char : char)
    (escapable : parser B) (input i : span) (consumed_nothing : bool) : result span :=
  if input_len i =? 0 then whole input
  else match fuel with
  | O => Bad BFuel
  | S fuel' =>
      (* lines 76-119: the arm for (Ok, true) | (Err(Error), _) *)
      let escape :=
        match iter_elements i with
        | [] => Bad (BError (from_error_kind i KEscaped))
        | next_char :: _ =>
            if next_char =? control_char then
              let next := len_utf8 control_char in
              if input_len i <=? next then Bad (BError (from_error_kind input KEscaped))
              else match take_from i next with
                   | None => Bad BPanic
                   | Some i' =>
                       match escapable i' with
                       | Ok i2 _ =>
                           if input_len i2 =? 0 then whole input
                           else escaped0_loop fuel' normal control_char escapable input i2 false
                       | Bad BPanic => Bad BPanic
                       | Bad BFuel => Bad BFuel
                       | Bad _ => Bad (BError (from_error_kind i KEscaped))
                       end
                   end
            else
              match offset input i with
              | None => Bad BPanic
              | Some index => split_result input index
              end
        end in
      match normal i, consumed_nothing with
      | Ok i2 _, false =>
          if input_len i2 =? 0 then whole input
          else escaped0_loop fuel' normal control_char escapable input i2
                 (input_len i2 =? input_len i)
      | Ok _ _, true => escape
      | Bad (BError _), _ => escape
      | Bad b, _ => Bad b
      end
  end.
(** The loop either shortens [i] or sets [consumed_nothing], hence twice the length. src/combinator.rs:47-128.
    *)
Definition escaped0 {A B} (normal : parser A) (control_char : char) (escapable : parser B)
  : parser span := fun input =>
  escaped0_loop (2 * List.length (frag input))%nat normal control_char escapable input input false.
