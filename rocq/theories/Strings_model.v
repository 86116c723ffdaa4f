(* Models of string/manacher.hpp and string/morris_pratt.hpp over an element type with its
   operator== . *)
From Verif Require Import Base.

Section Strings.
  Context {T : Type}.
  Variable eqb : T -> T -> bool.

  (* manacher.hpp:12-13 *)
  Fixpoint interleave (s : list T) (dummy : T) : list T :=
    match s with [] => [] | x :: s => x :: dummy :: interleave s dummy end.
  (* manacher.hpp:27; the loop of line 27 runs at most |v| times *)
  Definition grow (v : list T) (i j : Z) : res Z :=
    loop (S (length v)) (fun j =>
      if (0 <=? i - j) && (i + j <? zlen v) then
        let* x := vget v (i - j) in
        let* y := vget v (i + j) in
        if eqb x y then Ok (inl (j + 1)) else Ok (inr j)
      else Ok (inr j)) j.
  (* manacher.hpp:29-30 *)
  Definition copy_radii (r : list Z) (i j : Z) : res (list Z * Z) :=
    loop (S (length r)) (fun '(r, k) =>
      if 0 <=? i - k then
        let* c := vget r (i - k) in
        if k + c <? j then
          let* r := vset r (i + k) c in
          Ok (inl (r, k + 1))
        else Ok (inr (r, k))
      else Ok (inr (r, k))) (r, 1).
  (* manacher.hpp:25-34; [_r] starts as 2n+1 zeros *)
  Definition manacher_build (v : list T) (r : list Z) : res (list Z) :=
    let* r := loop (S (length v)) (fun '(i, j, r) =>
      if i <? zlen v then
        let* j := grow v i j in
        let* r := vset r i j in
        let* (r, k) := copy_radii r i j in
        Ok (inl (i + k, j - k, r))
      else Ok (inr r)) (0, 0, r) in
    Ok (map (fun x => x - 1) r).
  (* manacher.hpp:11-15 *)
  Definition manacher (s : list T) (dummy : T) : res (list Z) :=
    manacher_build (dummy :: interleave s dummy) (vrep (2 * zlen s + 1) 0).
  (* manacher.hpp:18-19 *)
  Definition odd_length (r : list Z) (i : Z) : res Z := vget r (2 * i + 1).
  Definition even_length (r : list Z) (i : Z) : res Z := vget r (2 * i).

  (* morris_pratt.hpp:16; [j] strictly decreases *)
  Definition fall (s : list T) (mp : list Z) (c : T) (j : Z) : res Z :=
    loop (S (length mp)) (fun j =>
      if 0 <=? j then
        let* y := vget s j in
        if eqb c y then Ok (inr j) else
        let* j := vget mp j in Ok (inl j)
      else Ok (inr j)) j.
  (* morris_pratt.hpp:10-20 *)
  Definition morris_pratt (s : list T) : res (list Z) :=
    let n := zlen s in
    let mp := vrep (n + 1) 0 in
    let* mp := vset mp 0 (-1) in
    let* (mp, j) := for_ 0 n (fun i '(mp, j) =>
      let* c := vget s i in
      let* j := fall s mp c j in
      let* mp := vset mp (i + 1) (j + 1) in
      Ok (mp, j + 1)) (mp, -1) in
    Ok mp.
  (* morris_pratt.hpp:25-33 *)
  Definition all_periods (s : list T) (accept_fragment : bool) : res (list Z) :=
    let* mp := morris_pratt s in
    let n := zlen mp - 1 in
    loop (S (length s)) (fun '(r, out) =>
      if r =? 0 then Ok (inr out) else
      let* b := vget mp r in
      let p := n - b in
      if accept_fragment then Ok (inl (b, out ++ [p])) else
      if p =? 0 then UB else
      Ok (inl (b, if n mod p =? 0 then out ++ [p] else out))) (n, []).
  (* morris_pratt.hpp:36-45: the first p elements; *start is read n times at most *)
  Definition min_period (s : list T) (accept_fragment : bool) : res (list T) :=
    let* ps := all_periods s accept_fragment in
    let* p := vget ps 0 in
    for_ 0 p (fun i out => let* x := vget s i in Ok (out ++ [x])) [].

  (* morris_pratt.hpp:53-55: s[j] may be read at j = s.size().  [past_end] is what that read
     gives: for std::string the terminating NUL, for any other container it is undefined. *)
  Definition read_past (past_end : option T) (s : list T) (j : Z) : res T :=
    if j =? zlen s then match past_end with Some x => Ok x | None => UB end else vget s j.
  (* morris_pratt.hpp:51-59 *)
  Definition matcher (past_end : option T) (s t : list T) : res (list Z) :=
    let* mp := morris_pratt s in
    let n := zlen s in
    let* (out, j) := for_ 0 (zlen t) (fun i '(out, j) =>
      let* c := vget t i in
      let* j := loop (S (S (length s))) (fun j =>
        if 0 <=? j then
          let* y := read_past past_end s j in
          if eqb y c then Ok (inr j) else
          let* j := vget mp j in Ok (inl j)
        else Ok (inr j)) j in
      let j := j + 1 in
      Ok (if j =? n then out ++ [i - n + 1] else out, j)) ([], 0) in
    Ok out.
End Strings.
