(* Histories of calls.  [run step s ops] performs the calls [ops] one after the
   other and returns the answers together with how the history ended: [Ok tt]
   when all calls returned, [Abort] when the last call failed its assertion, [UB]
   when it left the contract. *)
From Verif Require Import Base.

Section Run.
  Context {S O R : Type}.
  Variable step : S -> O -> res (R * S).
  Fixpoint run (s : S) (ops : list O) : list R * res unit :=
    match ops with
    | [] => ([], Ok tt)
    | o :: ops =>
        match step s o with
        | Ok (r, s') => let '(rs, f) := run s' ops in (r :: rs, f)
        | UB => ([], UB)
        | Abort => ([], Abort)
        | OutOfFuel => ([], OutOfFuel)
        end
    end.
End Run.

Section Sim.
  Context {S A O R : Type}.
  Variables (step : S -> O -> res (R * S)) (astep : A -> O -> res (R * A)).
  Variable Inv : S -> A -> Prop.
  Hypothesis sim : forall s a o, Inv s a ->
    match astep a o with
    | Ok (r, a') => exists s', step s o = Ok (r, s') /\ Inv s' a'
    | Abort => step s o = Abort
    | OutOfFuel => False
    | UB => True
    end.
  Lemma run_sim ops : forall s a, Inv s a -> snd (run astep a ops) <> UB -> run step s ops = run astep a ops.
  Proof.
    induction ops as [|o ops IH]; intros s a I H; auto. cbn [run] in *.
    pose proof (sim s a o I) as Hs. destruct (astep a o) as [(r, a')| | |]; cbn in H; try congruence; try tauto.
    - destruct Hs as (s' & E & I'). rewrite E. destruct (run astep a' ops) as [rs f] eqn:Ea.
      rewrite (IH s' a' I'); rewrite Ea; auto.
    - now rewrite Hs.
  Qed.
End Sim.
