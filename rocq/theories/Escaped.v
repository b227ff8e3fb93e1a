(** Model of nom's [escaped], which src/combinator.rs:37-46 compares [escaped0] with. *)
From Verif Require Export Combinator.

(** nom's [bytes::complete::escaped], named at src/combinator.rs:39,46 and run by the tests at src/combinator.rs:130-294:
    its [while] loop, on fuel. Where [normal] takes nothing the loop stops; where it fails, the control character is
    looked for; an error of [escapable] is handed on as it is. nom's own source is not part of the repository: this is
    written after its documentation and the outcomes in those tests, all of which [C77_tests] replays. *)
Fixpoint nom_escaped_loop {A B} (fuel : nat) (normal : parser A) (control_char : char)
    (escapable : parser B) (input i : span) : result span :=
  if input_len i =? 0 then whole input
  else match fuel with
  | O => Bad BFuel
  | S fuel' =>
      match normal i with
      | Ok i2 _ =>
          if input_len i2 =? 0 then whole input
          else if input_len i2 =? input_len i then
            match offset input i2 with
            | None => Bad BPanic
            | Some index => split_result input index
            end
          else nom_escaped_loop fuel' normal control_char escapable input i2
      | Bad (BError _) =>
          match iter_elements i with
          | [] => Bad BPanic
          | next_char :: _ =>
              if next_char =? control_char then
                let next := len_utf8 control_char in
                if input_len i <=? next then Bad (BError (from_error_kind input KEscaped))
                else match take_from i next with
                     | None => Bad BPanic
                     | Some i' =>
                         match escapable i' with
                         | Ok i2 _ =>
                             if input_len i2 =? 0 then whole input
                             else nom_escaped_loop fuel' normal control_char escapable input i2
                         | Bad b => Bad b
                         end
                     end
              else
                match offset input i with
                | None => Bad BPanic
                | Some index =>
                    if index =? 0 then Bad (BError (from_error_kind input KEscaped))
                    else split_result input index
                end
          end
      | Bad b => Bad b
      end
  end.
(** nom's [escaped] (src/combinator.rs:39,46). Every turn of the loop shortens [i]. *)
Definition nom_escaped {A B} (normal : parser A) (control_char : char) (escapable : parser B)
  : parser span := fun input =>
  nom_escaped_loop (List.length (frag input)) normal control_char escapable input input.
