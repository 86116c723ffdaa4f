(* Model of library/util/run_length_encoder.hpp (without pop_back, whose
   [comp.back.second] does not compile).  Counts are unbounded integers. *)
From Verif Require Import Base.

Section RLE.
  Context {T : Type}.
  Variable eqb : T -> T -> bool.

  (* run_length_encoder.hpp:66-67 *)
  Record rle := RLE { rl_length : Z; rl_comp : list (T * Z) }.

  (* run_length_encoder.hpp:15 *)
  Definition rle_default : rle := RLE 0 [].

  (* run_length_encoder.hpp:72  the inner while: [it_r] runs over [c] while its element
     equals [x]; returns the number of steps and the rest *)
  Fixpoint run_end (x : T) (c : list T) : Z * list T :=
    match c with
    | [] => (0, [])
    | y :: c' => if eqb x y then let '(k, rest) := run_end x c' in (k + 1, rest) else (0, c)
    end.

  (* run_length_encoder.hpp:69-75: the iterators are the remaining lists *)
  Definition compress (c : list T) : res (list (T * Z)) :=
    loop (S (length c)) (fun '(c, acc) =>
      match c with
      | [] => Ok (inr acc)
      | x :: _ => let '(k, rest) := run_end x c in Ok (inl (rest, acc ++ [(x, k)]))
      end) (c, []).

  (* run_length_encoder.hpp:16-19 *)
  Definition rle_of (c : list T) : res rle := let* comp := compress c in Ok (RLE (zlen c) comp).

  (* run_length_encoder.hpp:23-25: only [comp] takes part *)
  Definition rle_clear (s : rle) : rle := RLE (rl_length s) [].
  Definition rle_swap (s t : rle) : rle * rle := (RLE (rl_length s) (rl_comp t), RLE (rl_length t) (rl_comp s)).

  (* run_length_encoder.hpp:38-45 *)
  Definition rle_push_back (s : rle) (v : T) (num : Z) : res rle :=
    let n := zlen (rl_comp s) in
    let* comp :=
      (if negb (n =? 0) then
         let* b := vget (rl_comp s) (n - 1) in
         if eqb (fst b) v then vset (rl_comp s) (n - 1) (fst b, snd b + num)
         else Ok (rl_comp s ++ [(v, num)])
       else Ok (rl_comp s ++ [(v, num)])) in
    Ok (RLE (rl_length s + num) comp).
End RLE.
Arguments rle : clear implicits.
