(** What a caller readings off a match of the regex of an expression: the values, parameter by parameter. *)
From Verif Require Export SpecParams.

Section Reads.
  Context {I : Type} (text : I -> str) (param : parameter I -> str -> str -> str -> list (option str) -> Prop).
  (** [readings e pre s post vs]: between [pre] and [post], the text [s] is a reading of [e], in which the
      parameters of [e], in order, have the values [vs] (a list for each, one value per group). *)
  Inductive readings : expression I -> str -> str -> str -> list (list (option str)) -> Prop :=
  | readings_nil pre post : readings [] pre [] post []
  | readings_parameter p e pre s t post v vs :
      param p pre s (t ++ post) v -> readings e (pre ++ s) t post vs ->
      readings (ExParameter p :: e) pre (s ++ t) post (v :: vs)
  | readings_other x e pre s t post vs :
      match x with ExParameter _ => False | _ => single_means text (fun _ _ _ => False) x s [] end ->
      readings e (pre ++ s) t post vs -> readings (x :: e) pre (s ++ t) post vs.
End Reads.

(** The parameters whose groups have names: [{string}], and custom ones with a group outside of
    repetitions. *)
Definition has_names {I} (text : I -> str) (get : provider I) (p : parameter I) : Prop :=
  match get (par_input p) with
  | None => text (par_input p) = s_ "string"
  | Some t => exists r, regex_new t = Done r /\ has_outer r = true
  end.

(** Between [pre] and [post]: a word char before, a word char after. *)
Definition word_before (word : char -> bool) (pre : str) : Prop := exists a c, pre = a ++ [c] /\ word c = true.
Definition word_after (word : char -> bool) (post : str) : Prop := exists c b, post = c :: b /\ word c = true.
