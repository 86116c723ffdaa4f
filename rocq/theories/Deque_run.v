(* Calls on the deque and the queue as history steps. *)
From Verif Require Import Base Deque_model Deque_spec.
Definition it_move (nl : Z) (x : dqit) (m : move) : dqit :=
  match m with MInc => it_inc nl x | MDec => it_dec x | MAdd d => it_add nl x d | MSub d => it_sub nl x d end.
Section It.
  Context {T S R : Type}.
  Definition it_obs (l r : list (T * S)) (ms : list move) : res (dqout T R) :=
    let nl := zlen l in let nr := zlen r in
    let x := fold_left (it_move nl) ms it_begin in
    let p := it_diff nl x it_begin in
    if it_eq x (it_end nl nr) then Ok (DqPos p None)
    else let* v := it_deref l r x in Ok (DqPos p (Some v)).
End It.
Section Run.
  Context {T : Type}.
  Variables (op : T -> T -> T) (e : T).
  Definition dqstep (d : deque T) (o : dqop T) : res (dqout T T * deque T) :=
    match o with
    | DqPushBack v => let* d := dq_push_back op e d v in Ok (DqUnit, d)
    | DqPushFront v => let* d := dq_push_front op e d v in Ok (DqUnit, d)
    | DqPopBack => let* d := dq_pop_back op e d in Ok (DqUnit, d)
    | DqPopFront => let* d := dq_pop_front op e d in Ok (DqUnit, d)
    | DqFront => let* x := st_front (dq_l d) (dq_r d) in Ok (DqVal x, d)
    | DqBack => let* x := st_back (dq_l d) (dq_r d) in Ok (DqVal x, d)
    | DqAt i => let* x := st_at (dq_l d) (dq_r d) i in Ok (DqVal x, d)
    | DqSize => Ok (DqInt (dq_size d), d)
    | DqProd => let* x := dq_prod op e d in Ok (DqSum x, d)
    | DqClear => Ok (DqUnit, dq_clear d)
    | DqIter ms => let* x := it_obs (dq_l d) (dq_r d) ms in Ok (x, d)
    end.
End Run.
Section RunQ.
  Context {T S R : Type}.
  Variables (e : S) (append : S -> T -> S) (merge : S -> S -> R).
  (* push_front and pop_back do not exist on the queue: modelled as [UB] and
     excluded by [queue_op] *)
  Definition qustep (d : queue T S) (o : dqop T) : res (dqout T R * queue T S) :=
    match o with
    | DqPushBack v => let* d := qu_push_back e append d v in Ok (DqUnit, d)
    | DqPushFront v => UB
    | DqPopBack => UB
    | DqPopFront => let* d := qu_pop_front e append d in Ok (DqUnit, d)
    | DqFront => let* x := st_front (qu_l d) (qu_r d) in Ok (DqVal x, d)
    | DqBack => let* x := st_back (qu_l d) (qu_r d) in Ok (DqVal x, d)
    | DqAt i => let* x := st_at (qu_l d) (qu_r d) i in Ok (DqVal x, d)
    | DqSize => Ok (DqInt (qu_size d), d)
    | DqProd => let* x := qu_prod e merge d in Ok (DqSum x, d)
    | DqClear => Ok (DqUnit, qu_clear d)
    | DqIter ms => let* x := it_obs (qu_l d) (qu_r d) ms in Ok (x, d)
    end.
End RunQ.
