(* C11: DequeAggregation, C12: QueueAggregation. *)
From Verif Require Import Base Hist Seq Deque_model Deque_spec Deque_run Deque_proof.

(* C11.  For every monoid, every initial sequence and every history of calls
   within the contract, every answer (and every rejected pop on an empty deque)
   is that of a plain list whose product is [fold_right op e]. *)
Theorem deque_history {T} (op : T -> T -> T) (e : T) (c : list T) (ops : list (dqop T)) :
  is_monoid op e ->
  snd (run (dqspec (fold_right op e)) c ops) <> UB ->
  exists d, dq_of op e c = Ok d /\ run (dqstep op e) d ops = run (dqspec (fold_right op e)) c ops.
Proof. intros M H. exact (deque_history_ok op e M c ops H). Qed.
Print Assumptions deque_history.

Example deque_history_example :
  let op := @app Z in
  let ops := [DqPushFront [7]; DqPopBack; DqPopBack; DqProd; DqAt 1; DqPopFront; DqPushBack [9]; DqProd;
              DqIter [MInc; MAdd 1; MDec]; DqIter [MAdd 2]; DqBack; DqFront; DqSize; DqPopFront; DqPopFront; DqPopFront] in
  snd (run (dqspec (fold_right op [])) [[1]; [2]; [3]] ops) = Abort /\
  (let* d := dq_of op [] [[1]; [2]; [3]] in Ok (run (dqstep op []) d ops)) =
  Ok ([DqUnit; DqUnit; DqUnit; DqSum [7; 1]; DqVal [1]; DqUnit; DqUnit; DqSum [1; 9];
       DqPos 1 (Some [9]); DqPos 2 None; DqVal [9]; DqVal [1]; DqInt 2; DqUnit; DqUnit], Abort).
Proof. vm_compute. auto. Qed.

(* C12.  The queue agrees with the plain list for every way of aggregating that
   does not depend on where the sequence is cut ... *)
Theorem queue_history {T S R} (e : S) (append : S -> T -> S) (merge : S -> S -> R) (tot : list T -> R)
  (c : list T) (ops : list (dqop T)) :
  aggregates e append merge tot -> Forall queue_op ops ->
  snd (run (dqspec tot) c ops) <> UB ->
  exists d, qu_of e append c = Ok d /\ run (qustep e append merge) d ops = run (dqspec tot) c ops.
Proof. intro A. exact (queue_history_ok e append merge tot A c ops). Qed.
Print Assumptions queue_history.

(* ... in particular for every commutative monoid ... *)
Theorem queue_history_commutative {T} (op : T -> T -> T) (e : T) (c : list T) (ops : list (dqop T)) :
  is_monoid op e -> (forall x y, op x y = op y x) -> Forall queue_op ops ->
  snd (run (dqspec (fold_right op e)) c ops) <> UB ->
  exists d, qu_of e op c = Ok d /\ run (qustep e op op) d ops = run (dqspec (fold_right op e)) c ops.
Proof. intros M C. exact (queue_history_ok e op op (fold_right op e) (comm_aggregates op e M C) c ops). Qed.
Print Assumptions queue_history_commutative.

Example queue_history_example :
  let ops := [DqProd; DqPopFront; DqPushBack 5; DqProd; DqPopFront; DqPopFront; DqProd; DqPopFront; DqSize; DqPopFront] in
  snd (run (dqspec (fold_right Z.add 0)) [1; 2; 3] ops) = Abort /\
  (let* d := qu_of 0 Z.add [1; 2; 3] in Ok (run (qustep 0 Z.add Z.add) d ops)) =
  Ok ([DqSum 6; DqUnit; DqUnit; DqSum 10; DqUnit; DqUnit; DqSum 5; DqUnit; DqInt 0], Abort).
Proof. vm_compute. auto. Qed.

(* ... but not for any non-commutative one: two elements that do not commute are
   multiplied in the wrong order once a pop has moved them to the front stack. *)
Theorem queue_order_refuted {T} (op : T -> T -> T) (e z x y : T) :
  is_monoid op e -> op x y <> op y x ->
  let ops := [DqPushBack z; DqPushBack x; DqPushBack y; DqPopFront; DqProd] in
  run (qustep e op op) qu_empty ops = ([DqUnit; DqUnit; DqUnit; DqUnit; DqSum (op y x)], Ok tt) /\
  run (dqspec (fold_right op e)) [] ops = ([DqUnit; DqUnit; DqUnit; DqUnit; DqSum (op x y)], Ok tt) /\
  run (qustep e op op) qu_empty ops <> run (dqspec (fold_right op e)) [] ops.
Proof. exact (queue_order op e z x y). Qed.
Print Assumptions queue_order_refuted.

Example queue_order_example : [1] ++ [2] <> [2] ++ [1 : Z].
Proof. discriminate. Qed.
