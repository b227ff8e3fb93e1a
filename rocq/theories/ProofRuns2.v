(** Proofs about the runs of the automaton of a regex. *)
From Verif Require Export ProofRuns ProofAutomaton5.

Lemma automaton_first digit space word r s x : automaton_runs digit space word r s = Some x <->
  first_run (program digit space word r) (entry digit space word r) s (S (List.length (groups r))) x.
Proof.
  split; [apply backtrack_first|]. intros H. destruct (automaton_answers digit space word r s) as (y & Hy & _).
  unfold automaton_runs. rewrite Hy. f_equal. apply backtrack_first in Hy. exact (first_run_fun _ _ _ _ _ _ Hy H).
Qed.
(** Even the whole matches differ. *)
Lemma still_whole : exists t r s c d, parse_syntax t = Done r /\
  automaton_runs (fun _ => false) (fun _ => false) (fun _ => false) r s = Some (Some c) /\
  captures (fun _ => false) (fun _ => false) (fun _ => false) r s = Some d /\ hd_error c <> hd_error d.
Proof.
  exists (s_ "(?:(?:a|)(?:|b))*"), (ProofTypes.get (parse_syntax (s_ "(?:(?:a|)(?:|b))*"))), (s_ "ab"), [Some (s_ "a")], [Some (s_ "ab")].
  vm_compute. repeat (split; [reflexivity|]). discriminate.
Qed.
