(* graph/remove_multiedges.hpp.  std::remove_if calls the predicate once per element, from first to last (the libraries do; the standard does not say in which order), keeps the elements it rejects in
   order and erase drops the rest. *)
From Verif Require Import Base.
(* library/graph/remove_multiedges.hpp:14, with the state of [exists] threaded through the calls; std::exchange reads the flag and clears it *)
Fixpoint keep_flagged (vs : list Z) (ex : list bool) : res (list Z * list bool) :=
  match vs with
  | [] => Ok ([], ex)
  | v :: vs =>
      let* old := vget ex v in
      let* ex := vset ex v false in
      let* r := keep_flagged vs ex in
      Ok (if old : bool then v :: fst r else fst r, snd r)
  end.
(* library/graph/remove_multiedges.hpp:10-16 *)
Definition remove_multiedges (g : list (list Z)) : res (list (list Z)) :=
  let* s := for_each g (fun vs '(out, ex) =>
    let* ex := for_each vs (fun v ex => vset ex v true) ex in
    let* r := keep_flagged vs ex in
    Ok (out ++ [fst r], snd r)) ([], vrep (zlen g) false) in
  Ok (fst s).
