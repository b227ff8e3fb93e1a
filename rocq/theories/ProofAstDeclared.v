(** What [Debug] prints of expressions are the values of the declared type. *)
From Verif Require Import SpecAstDeclared.

Section Values.
  Context {I : Type} (input : I -> dbg).
  Notation value := (value_of input).
  Ltac here := cbn [In ast_types]; tauto.
  Lemma value_optional o : value (FNamed (s_ "Optional")) (debug_optional input o).
  Proof. eapply value_unnamed; [here|here|]. repeat constructor. Qed.
  Lemma value_parameter p : value (FNamed (s_ "Parameter")) (debug_parameter input p).
  Proof. eapply value_named; [here|here|]. repeat constructor. Qed.
  Lemma value_alternative a : value (FNamed (s_ "Alternative")) (debug_alternative input a).
  Proof. destruct a as [o|i]; (eapply value_unnamed; [here|cbn [In]|]); [left; reflexivity| |right; left; reflexivity|]; repeat constructor. apply value_optional. Qed.
  Lemma value_list {A} t (f : A -> dbg) l : (forall x, value t (f x)) -> value (FVec t) (DList (map f l)).
  Proof. intros H. constructor. induction l as [|x l IH]; cbn [map]; constructor; auto. Qed.
  Lemma value_alternation a : value (FNamed (s_ "Alternation")) (debug_alternation input a).
  Proof.
    eapply value_unnamed; [here|cbn [In]; left; reflexivity|]. constructor; [|constructor].
    apply value_list. intros x. apply value_list. exact value_alternative.
  Qed.
  Lemma value_single x : value (FNamed (s_ "SingleExpression")) (debug_single_expression input x).
  Proof.
    destruct x as [a|o|p|i|i]; (eapply value_unnamed; [here|cbn [In]|]);
      [left; reflexivity| |right; left; reflexivity| |do 2 right; left; reflexivity| |do 3 right; left; reflexivity| |do 4 right; left; reflexivity|];
      (constructor; [|constructor]); first [apply value_alternation|apply value_optional|apply value_parameter|constructor].
  Qed.
  Lemma value_expression e : value (FNamed (s_ "Expression")) (debug_expression input e).
  Proof.
    eapply value_unnamed; [here|cbn [In]; left; reflexivity|]. constructor; [|constructor]. apply value_list. exact value_single.
  Qed.

  Lemma values_list {A} t (f : A -> dbg) l : (forall d, value t d -> exists x, d = f x) -> Forall (value t) l -> exists k, l = map f k.
  Proof.
    intros H. induction 1 as [|d l Hd _ [k ->]]; [now exists []|]. destruct (H d Hd) as [x ->]. now exists (x :: k).
  Qed.
  Lemma input_is d : value FInput d -> exists i, d = input i.
  Proof. inversion 1. eauto. Qed.
  Lemma usize_is d : value FUsize d -> exists n, d = DNum n.
  Proof. inversion 1. eauto. Qed.
  Lemma vec_is {A} t (f : A -> dbg) d : (forall d, value t d -> exists x, d = f x) -> value (FVec t) d -> exists k, d = DList (map f k).
  Proof. intros H. inversion 1. subst. destruct (values_list t f l H) as [k ->]; [assumption|]. now exists k. Qed.
  (** The shape a value of a named type has. *)
  Lemma named_is t d : value (FNamed t) d -> exists shapes, In (t, shapes) ast_types /\
    ((exists name fields l, d = DTuple name l /\ In (Unnamed name fields) shapes /\ Forall2 value fields l) \/
     (exists name fields l, d = DStruct name l /\ In (Named name fields) shapes /\ Forall2 (fun f x => fst f = fst x /\ value (snd f) (snd x)) fields l)).
  Proof. inversion 1; subst; eexists; (split; [eassumption|]); [left|right]; do 3 eexists; eauto. Qed.
  Ltac declared H :=
    let s := fresh "s" in let Hs := fresh "Hs" in let Hv := fresh "Hv" in
    apply named_is in H; destruct H as (s & Hs & Hv); cbn [In ast_types] in Hs;
    repeat (destruct Hs as [Hs|Hs]; [try discriminate Hs; injection Hs; intros; subst s; clear Hs|]); try contradiction Hs;
    destruct Hv as [(? & ? & ? & -> & Hv)|(? & ? & ? & -> & Hv)]; cbn [In] in Hv; let Hd := fresh "Hd" in destruct Hv as [Hd Hv];
    repeat (destruct Hd as [Hd|Hd]; [try discriminate Hd; injection Hd; intros; subst; clear Hd|]); try contradiction Hd;
    repeat match goal with H : Forall2 _ (_ :: _) _ |- _ => inversion H; subst; clear H | H : Forall2 _ [] _ |- _ => inversion H; subst; clear H end.
  Lemma optional_is d : value (FNamed (s_ "Optional")) d -> exists o, d = debug_optional input o.
  Proof. intros H. declared H. match goal with H : value _ _ |- _ => destruct (input_is _ H) as [i ->] end. now exists (mkOptional i). Qed.
  Lemma parameter_is d : value (FNamed (s_ "Parameter")) d -> exists p, d = debug_parameter input p.
  Proof.
    intros H. declared H. repeat match goal with H : _ /\ _ |- _ => destruct H end. cbn [fst snd] in *.
    destruct y as [? d1], y0 as [? d2]. cbn [fst snd] in *. subst.
    match goal with H : value FInput _ |- _ => destruct (input_is _ H) as [i ->] end.
    match goal with H : value FUsize _ |- _ => destruct (usize_is _ H) as [n ->] end. now exists (mkParameter i n).
  Qed.
  Lemma alternative_is d : value (FNamed (s_ "Alternative")) d -> exists a, d = debug_alternative input a.
  Proof.
    intros H. declared H.
    - match goal with H : value _ _ |- _ => destruct (optional_is _ H) as [o ->] end. now exists (AltOptional o).
    - match goal with H : value _ _ |- _ => destruct (input_is _ H) as [i ->] end. now exists (AltText i).
  Qed.
  Lemma alternation_is d : value (FNamed (s_ "Alternation")) d -> exists a, d = debug_alternation input a.
  Proof.
    intros H. declared H.
    match goal with H : value _ _ |- _ => destruct (vec_is _ (fun x => DList (map (debug_alternative input) x)) _ (fun d => vec_is _ _ d alternative_is) H) as [a ->] end. now exists a.
  Qed.
  Lemma single_is d : value (FNamed (s_ "SingleExpression")) d -> exists x, d = debug_single_expression input x.
  Proof.
    intros H. declared H.
    - match goal with H : value _ _ |- _ => destruct (alternation_is _ H) as [a ->] end. now exists (ExAlternation a).
    - match goal with H : value _ _ |- _ => destruct (optional_is _ H) as [a ->] end. now exists (ExOptional a).
    - match goal with H : value _ _ |- _ => destruct (parameter_is _ H) as [a ->] end. now exists (ExParameter a).
    - match goal with H : value _ _ |- _ => destruct (input_is _ H) as [a ->] end. now exists (ExText a).
    - match goal with H : value _ _ |- _ => destruct (input_is _ H) as [a ->] end. now exists (ExWhitespaces a).
  Qed.
  Lemma expression_is d : value (FNamed (s_ "Expression")) d -> exists e, d = debug_expression input e.
  Proof. intros H. declared H. match goal with H : value _ _ |- _ => destruct (vec_is _ (debug_single_expression input) _ single_is H) as [e ->] end. now exists e. Qed.
  Lemma expression_values d : value (FNamed (s_ "Expression")) d <-> exists e, d = debug_expression input e.
  Proof. split; [apply expression_is|intros [e ->]; apply value_expression]. Qed.
End Values.
