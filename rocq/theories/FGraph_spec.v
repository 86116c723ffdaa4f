(* Walking a functional graph: from u one goes to nxt[u]. *)
From Verif Require Import Base.

Definition fgraph (nxt : list Z) : Prop := forall u, 0 <= u < zlen nxt -> exists v, vget nxt u = Ok v /\ 0 <= v < zlen nxt.
(* the vertex reached from u after k steps *)
Fixpoint follow (nxt : list Z) (k : nat) (u : Z) : res Z :=
  match k with O => Ok u | S k => let* v := vget nxt u in follow nxt k v end.
(* dat[u], dat[nxt[u]], ... : the product, in this order, of the values at the first k vertices *)
Fixpoint gather {T} (op : T -> T -> T) (e : T) (nxt : list Z) (dat : list T) (k : nat) (u : Z) : res T :=
  match k with
  | O => Ok e
  | S k => let* x := vget dat u in let* v := vget nxt u in let* s := gather op e nxt dat k v in Ok (op x s)
  end.
(* the number of steps the tables allow for: the least power of two above max_step *)
Definition reach_of (max_step : Z) : Z := 2 ^ (Z.log2 max_step + 1).
Lemma reach_of_gt m : 0 <= m -> m < reach_of m.
Proof.
  intros H. unfold reach_of. destruct (Z.eq_dec m 0) as [->|]; [reflexivity|]. apply Z.log2_spec. lia.
Qed.
(* what a search over step counts must find.  [holds k]: the predicate is true after k steps.
   A boundary: true at [step], and false one step later unless [step] is the last one allowed *)
Definition boundary (holds : Z -> Prop) (R step : Z) : Prop :=
  0 <= step < R /\ holds step /\ (step = R - 1 \/ ~ holds (step + 1)).
(* once false, false forever: then a boundary is the only one and separates true from false *)
Definition falls (holds : Z -> Prop) : Prop := forall j k, 0 <= j <= k -> holds k -> holds j.
(* the first step count at which the predicate is true *)
Definition first_true (holds : Z -> Prop) (step : Z) : Prop := 0 <= step /\ holds step /\ (step = 0 \/ ~ holds (step - 1)).
Definition rises (holds : Z -> Prop) : Prop := forall j k, 0 <= j <= k -> holds j -> holds k.
(* the predicates of Doubling (on the vertex) and of DoublingSum (on the product) *)
Definition at_vertex (nxt : list Z) (u : Z) (f : Z -> bool) (k : Z) : Prop := exists v, follow nxt (Z.to_nat k) u = Ok v /\ f v = true.
Definition at_sum {T} (op : T -> T -> T) (e : T) (nxt : list Z) (dat : list T) (u : Z) (f : T -> bool) (k : Z) : Prop :=
  exists s, gather op e nxt dat (Z.to_nat k) u = Ok s /\ f s = true.
