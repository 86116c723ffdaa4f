(* Model of library/util/cumulative_sum.hpp, library/util/cumulative_sum_2d.hpp and
   library/util/step_sum.hpp.  [add], [sub], [zero] are the template arguments
   (cumulative sums) or [+=], [-=] and the conversion of 0 (step sums). *)
From Verif Require Import Base Modint_model.

Section Cum.
  Context {T : Type}.
  Variables (zero : T) (add sub : T -> T -> T).

  (* cumulative_sum.hpp:28-29.  [None] is the indeterminate value that [n] has after
     the default constructor: reading it is undefined. *)
  Record cumsum := CS { cs_n : option Z; cs_s : list T }.

  (* cumulative_sum.hpp:11 *)
  Definition cs_default : cumsum := CS None [].

  (* cumulative_sum.hpp:12-14 *)
  Definition cs_of (a : list T) : res cumsum :=
    let n := zlen a in
    let* s := for_ 0 n (fun i s =>
      let* x := vget a i in
      let* y := vget s i in
      vset s (i + 1) (add x y)) (vrep (n + 1) zero) in
    Ok (CS (Some n) s).

  (* cumulative_sum.hpp:15-21 *)
  Definition cs_sum (c : cumsum) (l r : Z) : res T :=
    match cs_n c with
    | None => UB
    | Some n =>
        assert_ ((l <=? r) && (r <=? n)) ;;;
        let* x := vget (cs_s c) r in
        let* y := vget (cs_s c) l in
        Ok (sub x y)
    end.

  (* cumulative_sum.hpp:22-26; [back()] is the last element *)
  Definition cs_push_back (c : cumsum) (v : T) : res cumsum :=
    let s := match cs_s c with [] => [zero] | s => s end in
    let* b := vget s (zlen s - 1) in
    match cs_n c with
    | None => UB
    | Some n => Ok (CS (Some (n + 1)) (s ++ [add b v]))
    end.

  (* cumulative_sum_2d.hpp:22-23 *)
  Record cumsum2 := CS2 { c2_n : Z; c2_m : Z; c2_s : list (list T) }.

  (* s[i][j] *)
  Definition get2 (s : list (list T)) (i j : Z) : res T := let* row := vget s i in vget row j.
  Definition set2 (s : list (list T)) (i j : Z) (x : T) : res (list (list T)) :=
    let* row := vget s i in let* row := vset row j x in vset s i row.

  (* cumulative_sum_2d.hpp:12-16 *)
  Definition cs2_of (a : list (list T)) : res cumsum2 :=
    let n := zlen a in
    let* m := (if n =? 0 then Ok 0 else let* row := vget a 0 in Ok (zlen row)) in
    let* s := for_ 0 n (fun i s => for_ 0 m (fun j s =>
      let* x := get2 a i j in
      let* p := get2 s (i + 1) j in
      let* q := get2 s i (j + 1) in
      let* r := get2 s i j in
      set2 s (i + 1) (j + 1) (sub (add (add x p) q) r)) s) (vrep (n + 1) (vrep (m + 1) zero)) in
    Ok (CS2 n m s).

  (* cumulative_sum_2d.hpp:17-20 *)
  Definition cs2_sum (c : cumsum2) (u d l r : Z) : res T :=
    if negb ((u <=? d) && (d <=? c2_n c) && (l <=? r) && (r <=? c2_m c)) then Ok zero else
    let* dr := get2 (c2_s c) d r in
    let* ul := get2 (c2_s c) u l in
    let* ur := get2 (c2_s c) u r in
    let* dl := get2 (c2_s c) d l in
    Ok (sub (add dr ul) (add ur dl)).

  (* step_sum.hpp:39-41 *)
  Record stepsum := SS { ss_sum : list T; ss_step : Z; ss_n : Z; ss_br : barrett }.

  (* step_sum.hpp:15-19; the conversion of int [step] to uint32_t is [u32] *)
  Definition ss_of (a : list T) (step : Z) : res stepsum :=
    let n := zlen a in
    let* br := barrett_new (u32 step) in
    let* s := for_ step n (fun i s =>
      let* x := vget s i in
      let* y := vget s (i - step) in
      vset s i (add x y)) a in
    Ok (SS s step n br).

  (* step_sum.hpp:21-30; [_br.quo] takes and returns uint64_t, stored in an int;
     [t * _step + k] is int arithmetic *)
  Definition ss_get (c : stepsum) (k l r : Z) : res T :=
    if (r <=? k) || (r <=? l) || (ss_n c <=? l) then Ok zero else
    let* d1 := i32 (Z.min (ss_n c) r - 1) in
    let* d := i32 (d1 - k) in
    let t := to_i32 (barrett_quo true (ss_br c) (u64 d)) in
    let* ts := i32 (t * ss_step c) in
    let* p := i32 (ts + k) in
    let* ans := vget (ss_sum c) p in
    if k <? l then
      let* d1 := i32 (l - 1) in
      let* d := i32 (d1 - k) in
      let u := to_i32 (barrett_quo true (ss_br c) (u64 d)) in
      let* us := i32 (u * ss_step c) in
      let* p := i32 (us + k) in
      let* x := vget (ss_sum c) p in
      Ok (sub ans x)
    else Ok ans.
End Cum.
Arguments cumsum : clear implicits.
Arguments cumsum2 : clear implicits.
Arguments stepsum : clear implicits.
