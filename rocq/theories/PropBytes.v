(** Property C57 (bytes). Statements only. *)
From Verif Require Import ProofBytes.

(** * C57: offsets and lengths are those of the UTF-8 bytes. *)
Theorem C57_bytes : forall s,
  blen s = N.of_nat (List.length (bytes s)) /\
  newlines s = N.of_nat (count_occ N.eq_dec (bytes s) 10) /\
  (forall t, bytes s = bytes t -> s = t).
Proof. exact (fun s => conj (eq_sym (bytes_length s)) (conj (eq_sym (bytes_newlines s)) (bytes_inj s))). Qed.
(** [&s[..n]] and [&s[n..]] (behind [take], [take_from] and [take_split]) are the first [n] bytes and the others; they
    panic, both of them, exactly if a char crosses offset [n] or the string is shorter. *)
Theorem C57_slices : forall n s,
  match take_bytes n s, drop_bytes n s with
  | Some p, Some q => s = p ++ q /\ bytes p = firstn (N.to_nat n) (bytes s) /\ bytes q = skipn (N.to_nat n) (bytes s) /\
                      boundary (bytes s) n /\ N.of_nat (List.length (bytes p)) = n
  | None, None => ~ boundary (bytes s) n
  | _, _ => False
  end.
Proof. exact slices. Qed.
(** Every span of an AST, and the span of an error, says at which bytes of the input its text is. *)
Theorem C57_spans : forall s e i, addressable s ->
  expression_parse s = RetOk e -> In i (inputs e) -> span_in_bytes s i.
Proof. exact parsed_bytes. Qed.
Theorem C57_error_spans : forall s er, addressable s -> expression_parse s = RetErr er ->
  exists i, error_span er = Some i /\ frag i <> [] /\ span_in_bytes s i.
Proof. exact failed_bytes. Qed.
Print Assumptions C57_bytes. Print Assumptions C57_slices. Print Assumptions C57_spans. Print Assumptions C57_error_spans.
(** [é], a newline, [x], and a parameter named [€]; then with a char of four bytes, and the parameter left open. *)
Example C57_example :
  bytes [233; 10; 120; 123; 8364; 125] = [195; 169; 10; 120; 123; 226; 130; 172; 125] /\
  bytes [128512] = [240; 159; 152; 128] /\
  (exists e, expression_parse [233; 10; 120; 123; 8364; 125] = RetOk e /\
     inputs e = [mkspan 0 1 [233; 10; 120]; mkspan 5 2 [8364]]) /\
  expression_parse [128512; 10; 123; 8364] = RetErr (UnfinishedParameter (mkspan 5 2 (s_ "{"))) /\
  take_bytes 1 [233] = None.
Proof. vm_compute. repeat split. eexists. split; reflexivity. Qed.
