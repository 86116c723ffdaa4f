(* number/find_denominators.hpp with T = long long: every sum is checked for overflow; division truncates *)
From Verif Require Import Base.
(* the last two lines of every function *)
Definition pick (l r : Z) : option (Z * Z) := if l <=? r then Some (l, r) else None.
(* library/number/find_denominators.hpp:18-31 *)
Definition fld_pos (n q max_val : Z) : res (option (Z * Z)) :=
  if q >=? 0 then
    if n <? 0 then Ok None else
    let* a := i64 (n + 1) in let* a := i64 (a + q) in let* b := i64 (q + 1) in
    Ok (pick (Z.quot a b) (if q =? 0 then max_val else Z.min max_val (Z.quot n q)))
  else
    if n >=? 0 then Ok None else
    let* a := i64 (n + q) in let* a := i64 (a + 1) in
    let* c := i64 (n + 1) in
    Ok (pick (Z.quot a q) (if q =? -1 then max_val else Z.min max_val (Z.quot c (q + 1)))).
(* library/number/find_denominators.hpp:41-54 *)
Definition fld_neg (n q min_val : Z) : res (option (Z * Z)) :=
  if q >=? 0 then
    if n >? 0 then Ok None else
    let* a := i64 (n - 1) in let* a := i64 (a - q) in let* b := i64 (q + 1) in
    Ok (pick (if q =? 0 then min_val else Z.max min_val (Z.quot n q)) (Z.quot a b))
  else
    if n <=? 0 then Ok None else
    let* a := i64 (n - q) in let* a := i64 (a - 1) in
    Ok (pick (if q =? -1 then min_val else Z.max min_val (Z.quot (n - 1) (q + 1))) (Z.quot a q)).
(* library/number/find_denominators.hpp:64-75 *)
Definition cld_pos (n q max_val : Z) : res (option (Z * Z)) :=
  if q >? 0 then
    if n <=? 0 then Ok None else
    let* a := i64 (n + q) in let* a := i64 (a - 1) in
    Ok (pick (Z.quot a q) (if q =? 1 then max_val else Z.min max_val (Z.quot (n - 1) (q - 1))))
  else
    if n >? 0 then Ok None else
    let* a := i64 (n - 1) in let* a := i64 (a + q) in let* b := i64 (q - 1) in
    Ok (pick (Z.quot a b) (if q =? 0 then max_val else Z.min max_val (Z.quot n q))).
(* library/number/find_denominators.hpp:85-96 *)
Definition cld_neg (n q min_val : Z) : res (option (Z * Z)) :=
  if q >? 0 then
    if n >=? 0 then Ok None else
    let* a := i64 (n - q) in let* a := i64 (a + 1) in
    Ok (pick (if q =? 1 then min_val else Z.max min_val (Z.quot (n + 1) (q - 1))) (Z.quot a q))
  else
    if n <? 0 then Ok None else
    let* a := i64 (n + 1) in let* a := i64 (a - q) in let* b := i64 (q - 1) in
    Ok (pick (if q =? 0 then min_val else Z.max min_val (Z.quot n q)) (Z.quot a b)).
