(* The state reached by a history. *)
From Verif Require Import Base Hist.

Section After.
  Context {S O R : Type}.
  Variable step : S -> O -> res (R * S).
  Fixpoint after (s : S) (ops : list O) : res S :=
    match ops with
    | [] => Ok s
    | o :: ops => let* x := step s o in after (snd x) ops
    end.
End After.
Section Sim.
  Context {S A O R : Type}.
  Variables (step : S -> O -> res (R * S)) (astep : A -> O -> res (R * A)).
  Variable Inv : S -> A -> Prop.
  Hypothesis sim : forall s a o, Inv s a ->
    match astep a o with
    | Ok (r, a') => exists s', step s o = Ok (r, s') /\ Inv s' a'
    | Abort => step s o = Abort
    | OutOfFuel => False
    | UB => True
    end.
  Lemma after_sim ops : forall s a a', Inv s a -> after astep a ops = Ok a' -> exists s', after step s ops = Ok s' /\ Inv s' a'.
  Proof.
    induction ops as [|o ops IH]; intros s a a' I H; cbn [after] in *.
    - injection H as <-. eauto.
    - pose proof (sim s a o I) as Hs. destruct (astep a o) as [(r, a1)| | |]; cbn [bind snd] in H; try discriminate.
      destruct Hs as (s' & E & I'). rewrite E. cbn [bind snd]. eapply IH; eauto.
  Qed.
End Sim.
