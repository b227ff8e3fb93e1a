(** Property C92 (the iterators on whatever they are given). Statements only. [after next n s] is the state after [n] calls. *)
From Verif Require Import SpecEndless ProofEndless.

(** * C92: a call of [SkipLast] answers what the call of the inner iterator with the same number does, if the one after it answers
    something, else [None]; so it is for every iterator, be it endless or one that starts again. *)
Theorem C92_skip_last : forall St A (next : iter St A) s n,
  fst (skip_last_next next (after (skip_last_next next) n (skip_last_new s))) =
  match fst (next (after next (S n) s)) with Some _ => fst (next (after next n s)) | None => None end.
Proof. exact @skip_last_call. Qed.
Theorem C92_skip_last_endless : forall St A (next : iter St A) s f,
  endless next s f -> endless (skip_last_next next) (skip_last_new s) f.
Proof. exact @skip_last_endless. Qed.
(** It is always one call ahead. *)
Theorem C92_skip_last_ahead : forall St A (next : iter St A) s n, (0 < n)%nat ->
  after (skip_last_next next) n (skip_last_new s) = mkPeekable (Some (fst (next (after next n s)))) (after next (S n) s).
Proof. exact @skip_last_after. Qed.
(** [EscapeForRegex] has read no more than it has yielded, but for one char it yields next, whatever the inner iterator does after. *)
Theorem C92_escape : forall St (next : iter St char) s out, yields (escape_next next) (escape_new s) out ->
  exists l, yields next s l /\ whole l /\
    pk_iter (es_iter (after (escape_next next) (List.length out) (escape_new s))) = after next (List.length l) s /\
    (flat_map quote (unescape l) = out \/ exists c, flat_map quote (unescape l) = out ++ [c]).
Proof. exact @escape_reads. Qed.
(** It ends only if the inner one does. *)
Theorem C92_escape_endless : forall St (next : iter St char) s f, endless next s f ->
  forall n, exists out, List.length out = n /\ yields (escape_next next) (escape_new s) out.
Proof. exact @escape_endless. Qed.
Print Assumptions C92_skip_last. Print Assumptions C92_skip_last_endless. Print Assumptions C92_skip_last_ahead.
Print Assumptions C92_escape. Print Assumptions C92_escape_endless.

(** Backslashes and dots in turn, for ever. *)
Definition dots : iter nat char := fun n => (Some (if Nat.even n then c_ "\" else c_ "."), S n).
Example C92_endless_case : endless dots 0%nat (fun n => if Nat.even n then c_ "\" else c_ ".") /\
  outputs (escape_next dots) 5 (escape_new 0%nat) = map Some (s_ "\.\.\") /\
  pk_iter (es_iter (after (escape_next dots) 5 (escape_new 0%nat))) = 6%nat.
Proof.
  split; [|now split]. intros n. unfold yields. rewrite map_length, seq_length. generalize 0%nat.
  induction n as [|n IH]; intros k; [reflexivity|]. cbn [outputs dots seq map]. now rewrite IH.
Qed.
(** One that starts again: [SkipLast] then drops an item of each part. *)
Definition restarting : iter nat N := fun n => (nth n [Some 1; Some 2; None; Some 3; Some 4; Some 5; None] None, S n).
Example C92_restarting_case : outputs (skip_last_next restarting) 7 (skip_last_new 0%nat) = [Some 1; None; None; Some 3; Some 4; None; None].
Proof. reflexivity. Qed.
