(* Versions of arrays: every add makes a new version and leaves the others as they are *)
From Verif Require Import Base.
Inductive op :=
  | New (n : Z)                       (* PersistentFenwickTree(n) *)
  | Add (k i : Z) (v : Z)             (* add(i, v) on the k-th tree made so far *)
  | Sum (k l r : Z).                  (* sum(l, r) on the k-th tree *)
Definition total (l : list Z) : Z := fold_right Z.add 0 l.
(* the new list of versions and the answer; None when the call is outside its domain.  The answer to New and Add is the number of the new tree. *)
Definition spec_step (o : op) (vs : list (list Z)) : option (list (list Z) * Z) :=
  match o with
  | New n => if 1 <=? n then Some (vs ++ [vrep n 0], zlen vs) else None
  | Add k i v => match vget vs k with Ok a => match vget a i with Ok x => Some (vs ++ [zupd a i (x + v)], zlen vs) | _ => None end | _ => None end
  | Sum k l r => match vget vs k with
      | Ok a => if (0 <=? l) && (l <=? r) && (r <=? zlen a) then Some (vs, total (firstn (Z.to_nat (r - l)) (skipn (Z.to_nat l) a))) else None
      | _ => None end
  end.
Fixpoint spec_history (ops : list op) (vs : list (list Z)) : option (list Z) :=
  match ops with
  | [] => Some []
  | o :: ops => match spec_step o vs with None => None | Some (vs, x) => match spec_history ops vs with None => None | Some l => Some (x :: l) end end
  end.
