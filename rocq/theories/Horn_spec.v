(* Specification vocabulary for Horn satisfiability: assignments are lists of booleans. *)
From Verif Require Import Base.

(* premises, conclusion variable (negative = the contradiction), polarity of the conclusion *)
Record clause := mkClause { premises : list Z; concl : Z; positive : bool }.
(* the clause (x_a1 /\ ... /\ x_ac) -> y holds under the assignment *)
Definition holds (x : list bool) (c : clause) : Prop :=
  (forall i, In i (premises c) -> vget x i = Ok true) -> 0 <= concl c /\ vget x (concl c) = Ok (positive c).
Definition model_of (n : Z) (cs : list clause) (x : list bool) : Prop := zlen x = n /\ forall c, In c cs -> holds x c.
(* variables in range *)
Definition clause_ok (n : Z) (c : clause) : Prop := (forall i, In i (premises c) -> 0 <= i < n) /\ concl c < n.
(* no variable that is concluded to be false is a premise *)
Definition separated (cs : list clause) : Prop := forall c d, In c cs -> In d cs -> positive c = false -> 0 <= concl c -> ~ In (concl c) (premises d).
