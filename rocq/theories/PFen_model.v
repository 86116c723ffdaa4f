(* datastructure/fenwick_tree/persistent_fenwick_tree.hpp over the integers.  The pool (util/object_pool.hpp) is the list of the nodes handed out so far, a pointer is a position in it and -1 is nullptr;
   a node that is handed out is default constructed (the pool is not cleared in between) and the pool is large enough. *)
From Verif Require Import Base PFen_spec.
Notation node := (Z * Z * Z)%type. (* _ch[0], _ch[1], _dat *)
Notation pool := (list (Z * Z * Z)).
(* library/datastructure/fenwick_tree/persistent_fenwick_tree.hpp:21-28 *)
Definition fresh : node := (-1, -1, 0).
Definition clone (h : pool) (q : Z) : res (pool * Z) := let* c := vget h q in Ok (h ++ [c], zlen h).
(* lines 33-41, the recursive lambda *)
Fixpoint build_rec (fuel : nat) (n p id : Z) (h : pool) (nodes : list Z) : res (Z * pool * list Z) :=
  match fuel with
  | O => OutOfFuel
  | S fuel =>
      if p =? 0 then Ok (-1, h, nodes) else
      let np := p / 2 in
      let q := zlen h in
      let h := h ++ [fresh] in
      let* r := build_rec fuel n np (id - np) h nodes in
      let '(c0, h, nodes) := r in
      let* c := vget h q in let* h := vset h q (c0, snd (fst c), snd c) in                 (* line 37 *)
      let* r := (if id + 1 <=? n then                                                       (* line 38 *)
        let* r := build_rec fuel n np (id + np) h nodes in
        let '(c1, h, nodes) := r in
        let* c := vget h q in let* h := vset h q (fst (fst c), c1, snd c) in Ok (h, nodes) else Ok (h, nodes)) in
      let '(h, nodes) := r in
      let* nodes := (if id <=? n then vset nodes id q else Ok nodes) in                     (* line 39 *)
      Ok (q, h, nodes)
  end.
(* lines 30-48.  Of [dat] only the length is read. *)
Definition build (h : pool) (dat : list Z) (p : Z) : res (pool * Z) :=
  let n := zlen dat in
  let* r := build_rec (Z.to_nat (Z.log2 n) + 2) n p p h (vrep (n + 1) (-1)) in
  let '(root, h, nodes) := r in
  let* h := for_ 1 (n + 1) (fun i h =>
    let par := i + Z.land i (- i) in
    if par <=? n then
      let* a := vget nodes par in let* b := vget nodes i in
      let* x := vget h a in let* y := vget h b in
      vset h a (fst (fst x), snd (fst x), snd x + snd y)
    else Ok h) h in
  Ok (h, root).
(* lines 110-113; __builtin_clz(0) is undefined *)
Definition floor_pow2 (n : Z) : res Z := if n <=? 0 then UB else Ok (2 ^ Z.log2 n).
(* lines 106-107.  A tree is _p and _root *)
Notation tree := (Z * Z)%type.
(* line 89 *)
Definition of_values (h : pool) (dat : list Z) : res (pool * tree) :=
  let* p := floor_pow2 (zlen dat) in let* r := build h dat p in let '(h, root) := r in Ok (h, (p, root)).
(* line 88 *)
Definition of_size (h : pool) (n : Z) : res (pool * tree) := of_values h (vrep n 0).
(* lines 57-69, the loop *)
Fixpoint add_loop (fuel : nat) (h : pool) (p i v cur : Z) : res pool :=
  match fuel with
  | O => OutOfFuel
  | S fuel =>
      let* c := vget h cur in
      let '(l, r, d) := c in
      if negb (Z.land i p =? 0) then
        let i := Z.lxor i p in
        if negb (i =? 0) then
          let* s := clone h r in let '(h, q) := s in
          let* h := vset h cur (l, q, d) in add_loop fuel h (p / 2) i v q
        else vset h cur (l, r, d + v)
      else
        let* h := vset h cur (l, r, d + v) in
        let* s := clone h l in let '(h, q) := s in
        let* h := vset h cur (q, r, d + v) in add_loop fuel h (p / 2) i v q
  end.
(* lines 54-70, 101-103 *)
Definition add (h : pool) (t : tree) (i v : Z) : res (pool * tree) :=
  let '(p, root) := t in
  let* s := clone h root in let '(h, q) := s in
  let* h := add_loop (Z.to_nat (Z.log2 p) + 2) h p (i + 1) v q in Ok (h, (p, q)).
(* lines 72-84 *)
Fixpoint sum_loop (fuel : nat) (h : pool) (node p r acc : Z) : res Z :=
  match fuel with
  | O => OutOfFuel
  | S fuel =>
      if r =? 0 then Ok acc else
      let* c := vget h node in
      if negb (Z.land r p =? 0) then sum_loop fuel h (snd (fst c)) (p / 2) (Z.lxor r p) (acc + snd c)
      else sum_loop fuel h (fst (fst c)) (p / 2) r acc
  end.
(* lines 50-52, 98-100 *)
Definition sum (h : pool) (t : tree) (l r : Z) : res Z :=
  let '(p, root) := t in
  let* a := sum_loop (Z.to_nat (Z.log2 p) + 2) h root p r 0 in
  let* b := sum_loop (Z.to_nat (Z.log2 p) + 2) h root p l 0 in Ok (a - b).
(* the calls of a history; all trees share the static pool *)
Definition pf_step (o : op) (s : pool * list tree) : res (pool * list tree * Z) :=
  let '(h, ts) := s in
  match o with
  | New n => let* r := of_size h n in let '(h, t) := r in Ok (h, ts ++ [t], zlen ts)
  | Add k i v => let* t := vget ts k in let* r := add h t i v in let '(h, t) := r in Ok (h, ts ++ [t], zlen ts)
  | Sum k l r => let* t := vget ts k in let* x := sum h t l r in Ok (h, ts, x)
  end.
Fixpoint pf_history (ops : list op) (s : pool * list tree) : res (list Z) :=
  match ops with [] => Ok [] | o :: ops => let* r := pf_step o s in let '(s, x) := r in let* l := pf_history ops s in Ok (x :: l) end.
