(** What an expression means, without regexes: which strings it stands for, and with which values
    of its parameters. Independent of the expansion and of the regex model. *)
From Verif Require Export SpecAst SpecIter.

Definition newline : char := 10.
Definition quote1 : char := c_ "'".
Definition quote2 : char := c_ """".

(** ** The types of the built-in parameters *)
Section Types.
  (** Which chars are decimal digits and whitespace is left to the Unicode tables. *)
  Context (digit space : char -> bool).
  Definition digits (p : str) : Prop := Forall (fun c => digit c = true) p.
  Definition signed (signs : list str) (body : str -> Prop) (p : str) : Prop :=
    exists sign b, p = sign ++ b /\ (sign = [] \/ In sign signs) /\ body b.

  (** An optional minus, then digits. *)
  Definition number (p : str) : Prop := p <> [] /\ digits p.
  Definition int_string (p : str) : Prop := signed [s_ "-"] number p.

  (** An optional sign, then [inf], [NaN], or digits with at most one point among them or at either
      end (at least one digit), then possibly an exponent. *)
  Definition mantissa (p : str) : Prop :=
    number p \/ exists a b, p = a ++ s_ "." ++ b /\ number (a ++ b).
  Definition exponent (p : str) : Prop :=
    p = [] \/ exists e x, p = e :: x /\ In e (s_ "eE") /\ signed [s_ "+"; s_ "-"] number x.
  Definition unsigned_float (p : str) : Prop :=
    p = s_ "inf" \/ p = s_ "NaN" \/ exists m x, p = m ++ x /\ mantissa m /\ exponent x.
  Definition float_string (p : str) : Prop := signed [s_ "+"; s_ "-"] unsigned_float p.

  (** No whitespace, not empty. *)
  Definition word_string (p : str) : Prop := p <> [] /\ Forall (fun c => space c = false) p.

  (** The inside of a string in quotes [q]: chars other than [q] and the backslash, and backslashes
      followed by any char but a newline. *)
  Inductive quoted (q : char) : str -> Prop :=
  | quoted_nil : quoted q []
  | quoted_char c b : c <> q -> c <> backslash -> quoted q b -> quoted q (c :: b)
  | quoted_escape c b : c <> newline -> quoted q b -> quoted q (backslash :: c :: b).

  (** [typed name p v]: the piece [p] of the subject is of the built-in type [name], and then the
      capturing groups of the parameter hold [v]. *)
  Inductive typed : str -> str -> list (option str) -> Prop :=
  | typed_int p : int_string p -> typed (s_ "int") p [Some p]
  | typed_float p : float_string p -> typed (s_ "float") p [Some p]
  | typed_word p : word_string p -> typed (s_ "word") p [Some p]
  | typed_string2 b : quoted quote2 b -> typed (s_ "string") (quote2 :: b ++ [quote2]) [Some b; None]
  | typed_string1 b : quoted quote1 b -> typed (s_ "string") (quote1 :: b ++ [quote1]) [None; Some b]
  | typed_anonymous p : ~ In newline p -> typed [] p [Some p].
End Types.

Definition built_in (n : str) : Prop :=
  In n [s_ "int"; s_ "float"; s_ "word"; s_ "string"; []].

(** ** The meaning of an expression over parameters of given types:
    [param p s v] says that [s] is a piece of the type of the parameter [p], with values [v]. *)
Section Meaning.
  Context {I : Type} (text : I -> str) (param : parameter I -> str -> list (option str) -> Prop).

  Definition optional_means (o : optional I) (p : str) : Prop :=
    p = unescape (text (opt_input o)) \/ p = [].
  Definition alternative_means (a : alternative I) (p : str) : Prop :=
    match a with
    | AltOptional o => optional_means o p
    | AltText t => p = unescape (text t)
    end.
  Inductive branch_means : single_alternation I -> str -> Prop :=
  | branch_nil : branch_means [] []
  | branch_cons a b p q : alternative_means a p -> branch_means b q -> branch_means (a :: b) (p ++ q).
  (** An alternation without branches (no source text has one) stands for nothing. *)
  Definition alternation_means (a : alternation I) (p : str) : Prop :=
    (exists b, In b a /\ branch_means b p) \/ a = [] /\ p = [].

  Definition single_means (x : single_expression I) (p : str) (v : list (option str)) : Prop :=
    match x with
    | ExAlternation a => alternation_means a p /\ v = []
    | ExOptional o => optional_means o p /\ v = []
    | ExParameter q => param q p v
    | ExText t | ExWhitespaces t => p = unescape (text t) /\ v = []
    end.
  (** [pieces e l]: each element of [e] with a piece it stands for and the values captured there. *)
  Definition pieces (e : expression I) (l : list (str * list (option str))) : Prop :=
    Forall2 (fun x '(p, v) => single_means x p v) e l.
  Definition means (e : expression I) (s : str) (v : list (option str)) : Prop :=
    exists l, pieces e l /\ s = List.concat (map fst l) /\ v = List.concat (map snd l).
End Meaning.

(** The parameters of an expression, in order. *)
Definition parameters {I} (e : expression I) : list (parameter I) :=
  flat_map (fun x => match x with ExParameter p => [p] | _ => [] end) e.

(** The same where the type of a parameter may look at what stands before and after the piece (as a
    custom matcher with anchors does): [param p before piece after values]. *)
Section MeaningIn.
  Context {I : Type} (text : I -> str) (param : parameter I -> str -> str -> str -> list (option str) -> Prop).
  Inductive means_in : expression I -> str -> str -> str -> list (option str) -> Prop :=
  | means_in_nil pre post : means_in [] pre [] post []
  | means_in_cons x e pre s t post v w :
      single_means text (fun q s v => param q pre s (t ++ post) v) x s v ->
      means_in e (pre ++ s) t post w -> means_in (x :: e) pre (s ++ t) post (v ++ w).
End MeaningIn.

(** ** Decimal numbers, names of groups *)
Definition digit_values (t : str) : list N := map (fun c => c - c_ "0") t.
Definition decimal_value (t : str) : N := fold_left (fun n d => n * 10 + d) (digit_values t) 0.
Definition ascii_digit (c : char) : Prop := c_ "0" <= c <= c_ "9".
(** [t] is the usual decimal notation of [n]. *)
Definition decimal (n : N) (t : str) : Prop :=
  t <> [] /\ Forall ascii_digit t /\ decimal_value t = n /\ (t = s_ "0" \/ forall u, t <> c_ "0" :: u).
(** [__id_k] *)
Definition group_named (id k : N) (t : str) : Prop :=
  exists a b, decimal id a /\ decimal k b /\ t = s_ "__" ++ a ++ s_ "_" ++ b.
(** The capturing groups (their names, if any) of a built-in parameter. *)
Definition parameter_groups {I} (text : I -> str) (p : parameter I) (l : list (option str)) : Prop :=
  if list_eq_dec N.eq_dec (text (par_input p)) (s_ "string")
  then exists n0 n1, group_named (par_id p) 0 n0 /\ group_named (par_id p) 1 n1 /\ l = [Some n0; Some n1]
  else l = [None].

(** An expression for a literal text. *)
Definition escaped (t : str) : str :=
  flat_map (fun c => if in_dec N.eq_dec c reserved then [backslash; c] else [c]) t.

(** ** The grammar documented for [f64::from_str]
    <<
    Float  ::= Sign? ( 'inf' | 'infinity' | 'nan' | Number )
    Number ::= ( Digit+ | Digit+ '.' Digit* | Digit* '.' Digit+ ) Exp?
    Exp    ::= 'e' Sign? Digit+
    >>
    where letters stand for either case. *)
Section F64.
  Definition lower (c : char) : char := if (c_ "A" <=? c) && (c <=? c_ "Z") then c + 32 else c.
  Definition in_any_case (w p : str) : Prop := map lower p = w.
  Definition f64_digits (p : str) : Prop := Forall ascii_digit p.
  Definition f64_digits1 (p : str) : Prop := f64_digits p /\ p <> [].
  Definition f64_sign (p : str) : Prop := p = [] \/ p = s_ "+" \/ p = s_ "-".
  Definition f64_exp (p : str) : Prop :=
    exists e s d, p = e ++ s ++ d /\ in_any_case (s_ "e") e /\ f64_sign s /\ f64_digits1 d.
  Definition f64_number (p : str) : Prop :=
    exists m x, p = m ++ x /\ (x = [] \/ f64_exp x) /\
      (f64_digits1 m \/
       (exists a b, m = a ++ s_ "." ++ b /\ f64_digits1 a /\ f64_digits b) \/
       (exists a b, m = a ++ s_ "." ++ b /\ f64_digits a /\ f64_digits1 b)).
  Definition f64_string (p : str) : Prop :=
    exists s b, p = s ++ b /\ f64_sign s /\
      (in_any_case (s_ "inf") b \/ in_any_case (s_ "infinity") b \/ in_any_case (s_ "nan") b \/ f64_number b).
  (** What [{float}] leaves out: other spellings of infinity and not-a-number. *)
  Definition f64_special (p : str) : Prop :=
    exists s b, p = s ++ b /\ f64_sign s /\ b <> s_ "inf" /\ b <> s_ "NaN" /\
      (in_any_case (s_ "inf") b \/ in_any_case (s_ "infinity") b \/ in_any_case (s_ "nan") b).
End F64.
