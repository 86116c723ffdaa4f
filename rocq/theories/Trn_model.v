(* util/transpose.hpp and util/rot90.hpp; the overloads for strings differ only in the element type. *)
From Verif Require Import Base.
Section Trn.
  Context {T : Type}.
  Variable d : T. (* T{}, resp. '\0' *)
  (* B[j][i] = x *)
  Definition set2 (B : list (list T)) (j i : Z) (x : T) : res (list (list T)) :=
    let* row := vget B j in let* row := vset row i x in vset B j row.
  (* library/util/transpose.hpp:9-15, 16-22 *)
  Definition transpose (A : list (list T)) : res (list (list T)) :=
    if zlen A =? 0 then Ok A else
    let* a0 := vget A 0 in
    let N := zlen A in let M := zlen a0 in
    for_ 0 N (fun i B => for_ 0 M (fun j B =>
      let* row := vget A i in let* x := vget row j in set2 B j i x) B) (vrep M (vrep N d)).
  (* library/util/rot90.hpp:18-24, 25-31 *)
  Definition rot90 (A : list (list T)) : res (list (list T)) :=
    if zlen A =? 0 then Ok A else
    let* a0 := vget A 0 in
    let N := zlen A in let M := zlen a0 in
    for_ 0 N (fun i B => for_ 0 M (fun j B =>
      let* row := vget A i in let* x := vget row (M - j - 1) in set2 B j i x) B) (vrep M (vrep N d)).
End Trn.
