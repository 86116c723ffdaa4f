(* C82: Horn satisfiability. *)
From Verif Require Import Base BaseLemmas Horn_spec Horn_model Horn_proof.

(* After any history of add_clause and satisfiable calls, satisfiable() answers; when it answers true, answer() satisfies every clause added so far;
   when no variable concluded to be false is a premise, the answer is the least model, and false means that there is none. *)
Theorem horn_correct (n : Z) (ops : list hop) : 0 <= n -> (forall c, In (HAdd c) ops -> clause_ok n c) ->
  exists h b h', hrun n ops = Ok h /\ horn_sat h = Ok (b, h') /\
    (if b then exists x, horn_answer h' = Ok x /\ model_of n (hclauses ops) x /\
        (separated (hclauses ops) -> forall y i, model_of n (hclauses ops) y -> vget x i = Ok true -> vget y i = Ok true)
     else separated (hclauses ops) -> forall x, ~ model_of n (hclauses ops) x).
Proof.
  intros Hn HC. destruct (run_obj n ops Hn HC) as (h & X & H). destruct (o_ls _ _ _ H) as (LS & RL & KL). destruct (sat_ok n _ h H LS RL KL) as (b & h' & Y & _ & G). exists h, b, h'. auto.
Qed.
Print Assumptions horn_correct.
(* FINDING: the documentation allows conclusions of either sign, but deriving "x0 is false" triggers the clauses that have x0 as a premise:
   {x0 false; x0 -> x1; x1 -> contradiction} is reported unsatisfiable although x0 = x1 = false satisfies it. *)
Theorem horn_negative_refuted : exists n ops h h' x, 0 <= n /\ (forall c, In (HAdd c) ops -> clause_ok n c) /\ hrun n ops = Ok h /\ horn_sat h = Ok (false, h') /\ model_of n (hclauses ops) x.
Proof.
  exists 2, [HAdd (mkClause [] 0 false); HAdd (mkClause [0] 1 true); HAdd (mkClause [1] (-1) true)]. eexists. eexists. exists [false; false]. split; [lia|]. split.
  - intros c [E|[E|[E|[]]]]; injection E as <-; split; cbn; try lia; intros i I; lia.
  - split; [vm_compute; reflexivity|]. split; [vm_compute; reflexivity|]. split; [reflexivity|]. intros c [<-|[<-|[<-|[]]]] H; cbn [premises concl positive] in *.
    + split; [lia|reflexivity].
    + specialize (H 0 (or_introl eq_refl)). discriminate.
    + specialize (H 1 (or_introl eq_refl)). discriminate.
Qed.
Print Assumptions horn_negative_refuted.
Example horn_example : let ops := [HAdd (mkClause [] 0 true); HSat; HAdd (mkClause [0; 0] 1 true); HAdd (mkClause [0; 1] 2 false)] in
  (let* h := hrun 3 ops in let* (b, h) := horn_sat h in let* x := horn_answer h in Ok (b, x)) = Ok (true, [true; true; false]) /\
  (forall c, In (HAdd c) ops -> clause_ok 3 c) /\ separated (hclauses ops).
Proof.
  split; [vm_compute; reflexivity|]. split.
  - intros c [E|[E|[E|[E|[]]]]]; try discriminate; injection E as <-; split; cbn; try lia; intros i I; lia.
  - intros c d Ic Id Q _ I. cbn in Ic, Id. destruct Ic as [<-|[<-|[<-|[]]]]; cbn in Q; try discriminate. destruct Id as [<-|[<-|[<-|[]]]]; cbn in I; lia.
Qed.
