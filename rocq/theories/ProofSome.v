(** What the compiler knows of the least length of a match. *)
From Verif Require Import SpecSome Automaton.

Section Some.
  Context (digit space word : char -> bool).
  Notation rm := (rm digit space word).
  Notation rms := (rms digit space word).
  Lemma some_char r : surely_some r = true -> forall p m q c, rm r p m q c -> m <> [].
  Proof.
    induction r as [|c| |k|l|min max g r IH|n r IH|a IHa b IHb|a IHa b IHb]; cbn [surely_some]; intros Hs p m q caps H; try discriminate.
    - inversion H; subst. discriminate.
    - inversion H; subst. discriminate.
    - inversion H; subst. discriminate.
    - apply andb_true_iff in Hs as [Hm Hs]. apply N.ltb_lt in Hm. specialize (IH Hs). inversion H as [| | | | | | | | | | | |k ? ? ? ? ? ? ? ? Hk _ Hr]; subst.
      destruct k as [|k]; [lia|]. inversion Hr as [|? ? ? x y ? ? ? Hx]; subst. apply IH in Hx. destruct x; [easy|discriminate].
    - inversion H; subst. eapply IH; eauto.
    - inversion H as [| | | | | | | | |? ? ? x y ? ? ? Hx Hy| | |]; subst. apply orb_true_iff in Hs as [Hs|Hs].
      + apply (IHa Hs) in Hx. destruct x; [easy|discriminate].
      + apply (IHb Hs) in Hy. destruct y; [easy|]. destruct x; discriminate.
    - apply andb_true_iff in Hs as [Ha Hb]. inversion H; subst; eauto.
  Qed.
  Lemma rms_nothing r k : (forall p q, exists c, rm r p [] q c) -> forall p q, exists c, rms k r p [] q c.
  Proof.
    intros H. induction k as [|k IH]; intros p q; [eexists; apply rms_zero|]. destruct (H p q) as [c Hc]. destruct (IH p q) as [d Hd].
    eexists. apply (rms_succ digit space word k r p [] [] q c d); [exact Hc|]. now rewrite app_nil_r.
  Qed.
  Lemma no_char r : unconditional r -> surely_some r = false -> forall p q, exists c, rm r p [] q c.
  Proof.
    induction r as [|c| |k|l|min max g r IH|n r IH|a IHa b IHb|a IHa b IHb]; cbn [surely_some unconditional]; intros Hu Hs p q; try easy.
    - eexists. apply rm_empty.
    - destruct Hu as [Hb Hu]. apply andb_false_iff in Hs. assert (K : exists c, rms (N.to_nat min) r p [] q c).
      { destruct Hs as [Hs|Hs].
        - apply N.ltb_ge in Hs. assert (min = 0) as -> by lia. eexists. apply rms_zero.
        - apply rms_nothing. now apply IH. }
      destruct K as [c K]. exists c. apply rm_rep with (k := N.to_nat min); [lia| |exact K]. destruct max; [lia|exact I].
    - destruct (IH Hu Hs p q) as [c Hc]. eexists. apply rm_cap, Hc.
    - apply orb_false_iff in Hs as [Ha Hb]. destruct Hu as [Ua Ub]. destruct (IHa Ua Ha p q) as [c Hc]. destruct (IHb Ub Hb p q) as [d Hd].
      eexists. apply (rm_cat digit space word a b p [] [] q c d); [exact Hc|]. now rewrite app_nil_r.
    - destruct Hu as [Ua Ub]. apply andb_false_iff in Hs as [Hs|Hs].
      + destruct (IHa Ua Hs p q) as [c Hc]. eexists. apply rm_left, Hc.
      + destruct (IHb Ub Hs p q) as [c Hc]. eexists. apply rm_right, Hc.
  Qed.
End Some.
