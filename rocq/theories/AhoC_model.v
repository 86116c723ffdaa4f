(* Model of library/string/trie_map.hpp, aho_corasick.hpp, trie_array.hpp and aho_corasick_array.hpp.
   int is unbounded, characters are integers.  std::map is a list of (key, value) with ascending keys. *)
From Verif Require Import Base.

(* std::map::find, std::map::try_emplace of an absent key *)
Fixpoint mfind (c : Z) (m : list (Z * Z)) : option Z :=
  match m with [] => None | (k, w) :: m => if k =? c then Some w else mfind c m end.
Fixpoint mins (c w : Z) (m : list (Z * Z)) : list (Z * Z) :=
  match m with [] => [(c, w)] | (k, x) :: m => if c <? k then (c, w) :: (k, x) :: m else (k, x) :: mins c w m end.

(* trie_map.hpp:37, MapTrie(): one node *)
Definition trie_new : list (list (Z * Z)) := [[]].
(* trie_map.hpp:43-52 and aho_corasick.hpp:17-23.  Returns the nodes and the index of the last one visited; [it] stays
   valid when the vector of nodes grows (maps are moved). *)
Fixpoint trie_add (nx : list (list (Z * Z))) (s : list Z) (cur : Z) : res (list (list (Z * Z)) * Z) :=
  match s with
  | [] => Ok (nx, cur)
  | c :: s =>
      let* m := vget nx cur in
      match mfind c m with
      | Some w => trie_add nx s w
      | None => let* nx' := vset nx cur (mins c (zlen nx) m) in trie_add (nx' ++ [[]]) s (zlen nx)
      end
  end.

(* aho_corasick.hpp *)
Record ac := mkAC { a_fail : list Z; a_next : list (list (Z * Z)); a_marks : list Z; a_count : list Z; a_built : bool }.
(* line 14 and the members, lines 67-71 *)
Definition ac_new : ac := mkAC [] [[]] [] [] true.
(* lines 16-26 *)
Definition ac_add (a : ac) (s : list Z) : res ac :=
  let* (nx, cur) := trie_add (a_next a) s 0 in Ok (mkAC (a_fail a) nx (a_marks a ++ [cur]) (a_count a) false).
(* lines 51-61; every pass follows a failure link *)
Fixpoint ac_walk (fuel : nat) (nx : list (list (Z * Z))) (fl : list Z) (state c : Z) : res Z :=
  match fuel with
  | O => OutOfFuel
  | S fuel =>
      let* m := vget nx state in
      match mfind c m with
      | Some w => Ok w
      | None => if state =? 0 then Ok 0 else let* f := vget fl state in ac_walk fuel nx fl f c
      end
  end.
Definition ac_next_state (a : ac) (state c : Z) : res Z := assert_ (a_built a) ;;; ac_walk (length (a_next a)) (a_next a) (a_fail a) state c.
(* vector::resize(n, 0) *)
Definition grow (v : list Z) (n : Z) : list Z := firstn (Z.to_nat n) v ++ vrep (n - zlen v) 0.
(* lines 38-44 *)
Definition ac_child (nx : list (list (Z * Z))) (cur : Z) (e : Z * Z) (st : list Z * list Z * list Z) : res (list Z * list Z * list Z) :=
  let '(fl, cnt, dq) := st in
  let '(c, w) := e in
  let* (fl, cnt) :=
    (if negb (cur =? 0) then
       let* f := vget fl cur in
       let* x := ac_walk (length nx) nx fl f c in
       let* fl := vset fl w x in
       let* y := vget cnt x in
       let* z := vget cnt w in
       let* cnt := vset cnt w (z + y) in Ok (fl, cnt)
     else Ok (fl, cnt)) in
  Ok (fl, cnt, dq ++ [w]).
(* lines 35-45 *)
Definition ac_bfs (nx : list (list (Z * Z))) (st : list Z * list Z * list Z) : res ((list Z * list Z * list Z) + (list Z * list Z)) :=
  let '(fl, cnt, dq) := st in
  match dq with
  | [] => Ok (inr (fl, cnt))
  | cur :: dq => let* m := vget nx cur in let* st := for_each m (ac_child nx cur) (fl, cnt, dq) in Ok (inl st)
  end.
(* lines 28-46; _built is set first, so that next_state may be called *)
Definition ac_build (a : ac) : res ac :=
  let n := zlen (a_next a) in
  let* cnt := for_each (a_marks a) (fun m cnt => let* x := vget cnt m in vset cnt m (x + 1)) (grow (a_count a) n) in
  let* (fl, cnt) := loop (length (a_next a) + 1) (ac_bfs (a_next a)) (grow (a_fail a) n, cnt, [0]) in
  Ok (mkAC fl (a_next a) (a_marks a) cnt true).
(* lines 62-65 *)
Definition ac_count (a : ac) (state : Z) : res Z := assert_ (a_built a) ;;; vget (a_count a) state.
(* usage: add every pattern, build, read a text from init_state() *)
Definition ac_of (ps : list (list Z)) : res ac := let* a := for_each ps (fun s a => ac_add a s) ac_new in ac_build a.
Definition ac_read (a : ac) (t : list Z) : res Z := for_each t (fun c s => ac_next_state a s c) 0.

(* trie_array.hpp and aho_corasick_array.hpp.  A node is (next, count, failure); emplace_back() value-initialises
   it, so count and failure start at 0.  Characters are c - offset. *)
Record an := mkAN { n_row : list Z; n_count : Z; n_fail : Z }.
Definition an_new (al : Z) : an := mkAN (vrep al (-1)) 0 0.
Record aca := mkACA { r_nodes : list an; r_built : bool }.
Definition aca_new (al : Z) : aca := mkACA [an_new al] false.
Definition set_row (x : an) (r : list Z) : an := mkAN r (n_count x) (n_fail x).
(* trie_array.hpp:52-68 *)
Fixpoint arr_add (al off : Z) (nodes : list an) (s : list Z) (cur : Z) : res (list an * Z) :=
  match s with
  | [] => Ok (nodes, cur)
  | c :: s =>
      let c := c - off in
      let* x := vget nodes cur in
      let* w := vget (n_row x) c in
      if w =? -1 then
        let* row := vset (n_row x) c (zlen nodes) in
        let* nodes' := vset nodes cur (set_row x row) in
        arr_add al off (nodes' ++ [an_new al]) s (zlen nodes)
      else arr_add al off nodes s w
  end.
(* aho_corasick_array.hpp:26-28 *)
Definition aca_add (al off : Z) (a : aca) (s : list Z) : res aca :=
  let* (nodes, cur) := arr_add al off (r_nodes a) s 0 in
  let* x := vget nodes cur in
  let* nodes := vset nodes cur (mkAN (n_row x) (n_count x + 1) (n_fail x)) in
  Ok (mkACA nodes (r_built a)).
(* aho_corasick_array.hpp:37-46; links refers to the node f *)
Definition aca_slot (cur f i : Z) (st : list an * list Z) : res (list an * list Z) :=
  let '(nodes, dq) := st in
  let* link := (if negb (cur =? 0) then let* y := vget nodes f in vget (n_row y) i else Ok 0) in
  let* x := vget nodes cur in
  let* nxt := vget (n_row x) i in
  if negb (nxt =? -1) then
    let* w := vget nodes nxt in
    let* nodes := vset nodes nxt (mkAN (n_row w) (n_count w) link) in
    let* l := vget nodes link in
    let* w := vget nodes nxt in
    let* nodes := vset nodes nxt (mkAN (n_row w) (n_count w + n_count l) (n_fail w)) in
    Ok (nodes, dq ++ [nxt])
  else
    let* row := vset (n_row x) i link in
    let* nodes := vset nodes cur (set_row x row) in Ok (nodes, dq).
(* lines 33-47 *)
Definition aca_bfs (al : Z) (st : list an * list Z) : res ((list an * list Z) + list an) :=
  let '(nodes, dq) := st in
  match dq with
  | [] => Ok (inr nodes)
  | cur :: dq => let* x := vget nodes cur in let* st := for_ 0 al (aca_slot cur (n_fail x)) (nodes, dq) in Ok (inl st)
  end.
(* lines 30-49 *)
Definition aca_loop (al : Z) (fuel : nat) (nodes : list an) : res (list an) :=
  let* x := vget nodes 0 in
  let* nodes := vset nodes 0 (mkAN (n_row x) (n_count x) 0) in
  loop fuel (aca_bfs al) (nodes, [0]).
Definition aca_build (al : Z) (a : aca) : res aca :=
  let* nodes := aca_loop al (length (r_nodes a) + 1) (r_nodes a) in Ok (mkACA nodes true).
(* lines 52-67 *)
Definition aca_state_num (a : aca) : Z := zlen (r_nodes a).
Definition aca_next_state (off : Z) (a : aca) (state c : Z) : res Z :=
  assert_ (r_built a) ;;; let* x := vget (r_nodes a) state in vget (n_row x) (c - off).
Definition aca_count (a : aca) (state : Z) : res Z := assert_ (r_built a) ;;; let* x := vget (r_nodes a) state in Ok (n_count x).
Definition aca_of (al off : Z) (ps : list (list Z)) : res aca := let* a := for_each ps (fun s a => aca_add al off a s) (aca_new al) in aca_build al a.
Definition aca_read (off : Z) (a : aca) (t : list Z) : res Z := for_each t (fun c s => aca_next_state off a s c) 0.
