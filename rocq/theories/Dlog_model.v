(* Model of library/number/discrete_logarithm.hpp.  A modint is its value in [0, mod); mint(v) is v mod the current modulus.
   mint::inv is the parameter [inv] (modulus, value); mint::pow is Z.pow reduced; std::gcd is Z.gcd; std::unordered_map is an
   association list.  int arithmetic is checked by i32; ::sqrt(m) + 1 converted to int is Z.sqrt m + 1 (exact for 31-bit m). *)
From Verif Require Import Base.

(* lines 10-14 *)
Definition floor_log2 (m : Z) : res Z :=
  loop 40 (fun r => let* s := i32 (2 ^ (r + 1)) in if s <=? m then Ok (inl (r + 1)) else Ok (inr r)) 0.

Fixpoint find_key (mp : list (Z * Z)) (k : Z) : option Z :=
  match mp with [] => None | (a, b) :: mp => if a =? k then Some b else find_key mp k end.
Definition try_emplace (mp : list (Z * Z)) (k v : Z) : list (Z * Z) :=
  match find_key mp k with Some _ => mp | None => (k, v) :: mp end.

Section Inv.
  Variable inv : Z -> Z -> res Z.
  (* lines 17-32 *)
  Definition dlog_coprime (m x y : Z) : res Z :=
    if (y =? 1 mod m) || (m =? 1) then Ok 0
    else if x =? 0 then Ok (if y =? 0 then 1 else -1)
    else
      let p := Z.sqrt m + 1 in
      let* xi := inv m x in
      let a := xi ^ p mod m in
      let* (mp, _) := for_ 0 p (fun j st => let '(mp, pw) := st in Ok (try_emplace mp pw j, pw * x mod m)) ([], 1 mod m) in
      loop (Z.to_nat (p + 1)) (fun st => let '(i, ya) := st in
        if i <? p then
          match find_key mp ya with
          | Some j => let* pi := i32 (p * i) in let* r := i32 (pi + j) in Ok (inr r)
          | None => Ok (inl (i + 1, ya * a mod m))
          end
        else Ok (inr (-1))) (0, y).
  (* lines 34-48; the second result is the modulus left set *)
  Definition dlog (m x y : Z) : res (Z * Z) :=
    if m =? 1 then Ok (0, m)
    else
      let* d := floor_log2 m in
      let* e := loop (Z.to_nat (d + 1)) (fun st => let '(i, pw) := st in
        if i <? d then (if pw =? y then Ok (inr (inl i)) else Ok (inl (i + 1, pw * x mod m))) else Ok (inr (inr pw))) (0, 1 mod m) in
      match e with
      | inl i => Ok (i, m)
      | inr pw =>
        let g := Z.gcd pw m in
        if negb (y mod g =? 0) then Ok (-1, m)
        else
          let m' := m / g in
          let* iv := inv m' (pw mod m') in
          let* t := dlog_coprime m' (x mod m') ((y mod m') * iv mod m') in
          if negb (t =? -1) then let* r := i32 (d + t) in Ok (r, m) else Ok (-1, m)
      end.
End Inv.
(* an inverse by search, for the examples *)
Definition inv_search (m a : Z) : res Z :=
  match find (fun b => a * b mod m =? 1 mod m) (zrange m) with Some b => Ok b | None => Abort end.
