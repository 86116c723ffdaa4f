(* Model of datastructure/sparse_table.hpp. *)
From Verif Require Import Base.
Section SparseTable.
  Context {T : Type}.
  Variables (op : T -> T -> T) (e : T).
  Variable d0 : T.     (* the value-initialised T{} written by resize *)
  Record sptable := mkSp { sp_n : Z; sp_log : Z; sp_table : list (list T); sp_flog : list Z }.

  (* [std::fill(v.begin() + lo, v.begin() + hi, x)] *)
  Definition fill {A} (v : list A) (lo hi : Z) (x : A) : res (list A) := for_ lo hi (fun i v => vset v i x) v.
  (* sparse_table.hpp:44-46; __builtin_clz(0) is undefined *)
  Definition floor_log2 (i : Z) : res Z := if i =? 0 then UB else Ok (Z.log2 i).
  (* sparse_table.hpp:30-37; the new row is filled locally and then stored *)
  Definition build_table (n log : Z) (table : list (list T)) (a : list T) : res (list (list T)) :=
    let* table := vset table 0 a in
    for_ 0 log (fun i table =>
      let lmax := n - 2 ^ (i + 1) in
      let* cur := vget table i in
      let* row := for_ 0 (lmax + 1) (fun l row =>
        let* x := vget cur l in
        let* y := vget cur (l + 2 ^ i) in
        vset row l (op x y)) (vrep (lmax + 1) d0) in
      vset table (i + 1) row) table.
  (* sparse_table.hpp:38-43 *)
  Definition build_flog (n log : Z) (flog : list Z) : res (list Z) :=
    let* flog := for_ 0 log (fun l flog => fill flog (2 ^ l) (2 ^ (l + 1)) l) flog in
    fill flog (2 ^ log) (zlen flog) log.
  (* sparse_table.hpp:10-14 *)
  Definition sp_of (a : list T) : res sptable :=
    let n := zlen a in
    let* log := floor_log2 n in
    let* table := build_table n log (vrep (log + 1) []) a in
    let* flog := build_flog n log (vrep (n + 1) 0) in
    Ok (mkSp n log table flog).
  (* sparse_table.hpp:15-22 *)
  Definition sp_prod (s : sptable) (l r : Z) : res T :=
    if r <=? l then Ok e else
    let* i := vget (sp_flog s) (r - l) in
    let* row := vget (sp_table s) i in
    let* x := vget row l in
    let* y := vget row (r - 2 ^ i) in
    Ok (op x y).
End SparseTable.
