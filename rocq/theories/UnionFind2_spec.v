(* Specification of the union-find structures that carry data. *)
From Verif Require Import Base UnionFind_spec.

(* [c :: cs] lists the component of x, each vertex once *)
Definition component_list (n : Z) (E : list (Z * Z)) (x : Z) (c : Z) (cs : list Z) : Prop :=
  NoDup (c :: cs) /\ forall v, In v (c :: cs) <-> 0 <= v < n /\ connected E x v.

(* ---- weighted ---- *)
Section WSpec.
  Context {T : Type}.
  Variables (op : T -> T -> T) (e : T) (neg : T -> T).

  Record is_group : Prop := {
    gr_assoc : forall a b c, op a (op b c) = op (op a b) c;
    gr_e_l : forall a, op e a = a;
    gr_e_r : forall a, op a e = a;
    gr_neg_l : forall a, op (neg a) a = e;
    gr_neg_r : forall a, op a (neg a) = e
  }.

  (* [dist A x y d]: d is the product of the differences along some path from x
     to y made of the triples (u, v, d) in A, "v is d after u", each usable in
     both directions *)
  Inductive dist (A : list (Z * Z * T)) : Z -> Z -> T -> Prop :=
  | dist_refl x : dist A x x e
  | dist_fwd x y d z d' : In (x, y, d) A -> dist A y z d' -> dist A x z (op d d')
  | dist_bwd x y d z d' : In (y, x, d) A -> dist A y z d' -> dist A x z (op (neg d) d').

  Definition edges (A : list (Z * Z * T)) : list (Z * Z) := map (fun '(x, y, _) => (x, y)) A.

  Inductive wop := WMerge (x y : Z) (d : T) | WSame (x y : Z) | WDiff (x y : Z) | WSize (x : Z).
  Inductive wout := WBool (b : bool) | WVal (d : T) | WInt (k : Z).

  Definition wop_ok (n : Z) (o : wop) : Prop :=
    match o with
    | WMerge x y _ | WSame x y | WDiff x y => 0 <= x < n /\ 0 <= y < n
    | WSize x => 0 <= x < n
    end.

  (* A: the accepted merges so far.  [None]: the call fails its assertion. *)
  Inductive wstep (n : Z) (A : list (Z * Z * T)) : wop -> option wout -> list (Z * Z * T) -> Prop :=
  | ws_merge_new x y d : ~ connected (edges A) x y ->
      wstep n A (WMerge x y d) (Some (WBool true)) ((x, y, d) :: A)
  | ws_merge_old x y d : connected (edges A) x y ->
      wstep n A (WMerge x y d) (Some (WBool false)) A
  | ws_same x y b : (b = true <-> connected (edges A) x y) ->
      wstep n A (WSame x y) (Some (WBool b)) A
  (* the answer is the product along a path, and along every path *)
  | ws_diff x y d : dist A x y d -> (forall d', dist A x y d' -> d' = d) ->
      wstep n A (WDiff x y) (Some (WVal d)) A
  | ws_diff_fail x y : ~ connected (edges A) x y ->
      wstep n A (WDiff x y) None A
  | ws_size x k : counts n (connected (edges A) x) k ->
      wstep n A (WSize x) (Some (WInt k)) A.

  Inductive wruns (n : Z) : list (Z * Z * T) -> list wop -> list wout -> bool (* aborted *) -> Prop :=
  | wr_nil A : wruns n A [] [] false
  | wr_abort A o ops A' : wstep n A o None A' -> wruns n A (o :: ops) [] true
  | wr_cons A o ops r A' rs a : wstep n A o (Some r) A' -> wruns n A' ops rs a ->
      wruns n A (o :: ops) (r :: rs) a.
End WSpec.

(* ---- lazy ---- *)
Section LSpec.
  Context {T F : Type}.
  Variables (add : T -> T -> T) (neg : T -> T).
  Variables (mapping : F -> T -> Z -> T) (comp : F -> F -> F) (idf : F) (inv : F -> F).

  (* T an abelian group (zero left implicit), F a group acting on sums of k values *)
  Record lazy_laws (zero : T) : Prop := {
    ll_assoc : forall a b c, add a (add b c) = add (add a b) c;
    ll_comm : forall a b, add a b = add b a;
    ll_zero : forall a, add zero a = a;
    ll_neg : forall a, add a (neg a) = zero;
    ll_add : forall f a b k l, 0 < k -> 0 < l -> mapping f (add a b) (k + l) = add (mapping f a k) (mapping f b l);
    ll_id : forall a k, mapping idf a k = a;
    ll_comp : forall f g a k, mapping (comp f g) a k = mapping f (mapping g a k) k;
    ll_inv : forall f a, mapping f (mapping (inv f) a 1) 1 = a /\ mapping (inv f) (mapping f a 1) 1 = a
  }.

  Inductive lop :=
  | LMerge (x y : Z) | LGetComp (x : Z) | LGetPoint (x : Z)
  | LApplyComp (x : Z) (f : F) | LApplyPoint (x : Z) (f : F) | LSetPoint (x : Z) (v : T)
  | LPropagate (x : Z).
  Inductive lout := LBool (b : bool) | LVal (t : T) | LUnit.

  Definition lop_ok (n : Z) (o : lop) : Prop :=
    match o with
    | LMerge x y => 0 <= x < n /\ 0 <= y < n
    | LGetComp x | LGetPoint x | LApplyComp x _ | LApplyPoint x _ | LSetPoint x _ | LPropagate x => 0 <= x < n
    end.

  (* abstract state: merged pairs and the array of values *)
  Inductive lstep (n : Z) : list (Z * Z) * (Z -> T) -> lop -> lout -> list (Z * Z) * (Z -> T) -> Prop :=
  | ls_merge E a x y b : (b = true <-> ~ connected E x y) ->
      lstep n (E, a) (LMerge x y) (LBool b) ((x, y) :: E, a)
  | ls_getcomp E a x t :
      (forall c cs, component_list n E x c cs -> t = fold_left add (map a cs) (a c)) ->
      lstep n (E, a) (LGetComp x) (LVal t) (E, a)
  | ls_getpoint E a x : lstep n (E, a) (LGetPoint x) (LVal (a x)) (E, a)
  | ls_applycomp E a x f a' :
      (forall v, connected E x v -> a' v = mapping f (a v) 1) ->
      (forall v, ~ connected E x v -> a' v = a v) ->
      lstep n (E, a) (LApplyComp x f) LUnit (E, a')
  | ls_applypoint E a x f :
      lstep n (E, a) (LApplyPoint x f) LUnit (E, fun v => if v =? x then mapping f (a x) 1 else a v)
  | ls_setpoint E a x t :
      lstep n (E, a) (LSetPoint x t) LUnit (E, fun v => if v =? x then t else a v)
  | ls_propagate E a x : lstep n (E, a) (LPropagate x) LUnit (E, a).

  Inductive lruns (n : Z) : list (Z * Z) * (Z -> T) -> list lop -> list lout -> Prop :=
  | lr_nil s : lruns n s [] []
  | lr_cons s o ops r s' rs : lstep n s o r s' -> lruns n s' ops rs -> lruns n s (o :: ops) (r :: rs).
End LSpec.
Arguments wop : clear implicits.
Arguments wout : clear implicits.
Arguments lop : clear implicits.
Arguments lout : clear implicits.
