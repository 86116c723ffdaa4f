(* graph/minmax_floyd_warshall.hpp with integer costs and the default comparison.  std::sort is the parameter [sort].
   A row of 64-bit words is a list of booleans; the word (x & ~y) of a block is the list of the positions of its ones, in the order of all_setbit_64 (C96). *)
From Verif Require Import Base.
Definition mget {A} (m : list (list A)) (i j : Z) : res A := let* r := vget m i in vget r j.
Definition mset {A} (m : list (list A)) (i j : Z) (x : A) : res (list (list A)) := let* r := vget m i in let* r := vset r j x in vset m i r.
Definition fw_st : Type := (list (list bool) * list (list bool) * list (list Z))%type. (* G, rG, res *)
(* library/graph/minmax_floyd_warshall.hpp:34-45 *)
Definition fw_add (c u v : Z) (s : fw_st) : res (fw_st * bool) :=
  let '(G, rG, R) := s in
  let* g := mget G u v in
  if g then Ok (s, false) else
  let* R := mset R u v c in
  let* G := mset G u v true in
  let* rG := mset rG v u true in
  Ok ((G, rG, R), true).
(* the ones of x & ~y in block i *)
Definition fw_new (n i : Z) (x y : list bool) : res (list Z) :=
  for_ (64 * i) (Z.min n (64 * i + 64)) (fun j out => let* a := vget x j in let* b := vget y j in Ok (if a && negb b then out ++ [j] else out)) [].
(* library/graph/minmax_floyd_warshall.hpp:47-62 *)
Fixpoint fw_rec (fuel : nat) (n c u v : Z) (s : fw_st) : res fw_st :=
  match fuel with
  | O => OutOfFuel
  | S fuel =>
      for_ 0 ((n + 63) / 64) (fun i (s : fw_st) =>
        let '(G, rG, R) := s in
        let* gv := vget G v in let* gu := vget G u in
        let* l := fw_new n i gv gu in                                                            (* line 50 *)
        let* s := for_each l (fun j s => let* r := fw_add c u j s in Ok (fst r)) (G, rG, R) in    (* line 52 *)
        let* s := for_each l (fun j s => fw_rec fuel n c u j s) s in                             (* line 53 *)
        let '(G, rG, R) := s in
        let* ru := vget rG u in let* rv := vget rG v in
        let* l := fw_new n i ru rv in                                                            (* line 56 *)
        let* s := for_each l (fun j s => let* r := fw_add c j v s in Ok (fst r)) (G, rG, R) in    (* line 58 *)
        for_each l (fun j s => fw_rec fuel n c j v s) s) s                                       (* line 59 *)
  end.
Section Sort.
  Variable sort : list (Z * Z * Z) -> list (Z * Z * Z).
  (* library/graph/minmax_floyd_warshall.hpp:15-69.  Lines 25-28 fill the array of edges in row order. *)
  Definition minmax_floyd_warshall (cost : list (list Z)) : res (list (list Z)) :=
    let n := zlen cost in
    let* edges := for_ 0 n (fun i es => for_ 0 n (fun j es => let* c := mget cost i j in Ok (es ++ [(c, i, j)])) es) [] in
    let* s := for_each (sort edges) (fun e (s : fw_st) =>
      let '(c, u, v) := e in
      let* r := fw_add c u v s in
      let '(s, fresh) := r in
      if (fresh : bool) then fw_rec (S (Z.to_nat (n * n))) n c u v s else Ok s)                             (* lines 63-65 *)
      (vrep n (vrep n false), vrep n (vrep n false), vrep n (vrep n 0)) in
    let '(G, rG, R) := s in Ok R.
End Sort.
