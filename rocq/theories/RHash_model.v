(* Model of library/string/rolling_hash.hpp with its default template argument mint = modint2p61m1 (Montgomery_model), any base_num.
   gen_bases (lines 14-24, a random generator) is not modelled: the bases are a parameter, as after set_bases.  The tables pows are static, hence shared
   by all objects: they are passed through every call. *)
From Verif Require Import Base Montgomery_model RHash_spec.

(* pow_mods.hpp:34-45 *)
Definition rp_ensure (base n : Z) (v : list Z) : res (list Z) :=
  let sz := zlen v in
  if n <? sz then Ok v else
  for_ sz (n + 1) (fun i v => let* x := vget v (i - 1) in vset v i (m61_mul base x)) (v ++ vrep (n + 1 - sz) (m61_of 0)).
Definition rp_get (base : Z) (v : list Z) (i : Z) : res (Z * list Z) := let* v := rp_ensure base i v in let* x := vget v i in Ok (x, v).
(* rolling_hash.hpp:25-31: every table starts as {1} *)
Definition rh_init (bases : list Z) : list (list Z) := map (fun _ => [m61_of 1]) bases.
(* lines 42-48; the int a[i] is converted to uint64_t *)
Definition rh_make (bases a : list Z) : res (list (list Z)) :=
  let n := zlen a in
  for_each bases (fun base hs =>
    let* h := for_ 0 n (fun i h => let* x := vget h i in let* y := vget a i in vset h (i + 1) (m61_add (m61_mul x base) (m61_of (u64 y)))) (vrep (n + 1) (m61_of 0)) in
    Ok (hs ++ [h])) [].
(* lines 50-56 *)
Definition rh_sub (bases : list Z) (pows hash : list (list Z)) (l r : Z) : res (list Z * list (list Z)) :=
  for_ 0 (zlen bases) (fun id '(out, pows) =>
    let* base := vget bases id in let* h := vget hash id in let* tb := vget pows id in
    let* x := vget h r in let* y := vget h l in
    let* pt := rp_get base tb (r - l) in
    let* pows := vset pows id (snd pt) in
    Ok (out ++ [m61_sub x (m61_mul y (fst pt))], pows)) ([], pows).
(* lines 58-63 *)
Definition rh_concat (bases : list Z) (pows hash : list (list Z)) (hv : list Z) (l r : Z) : res (list Z * list (list Z)) :=
  for_ 0 (zlen bases) (fun id '(hv, pows) =>
    let* base := vget bases id in let* h := vget hash id in let* tb := vget pows id in
    let* h0 := vget hv id in
    let* x := vget h r in let* y := vget h l in
    let* pt := rp_get base tb (r - l) in
    let* pows := vset pows id (snd pt) in
    let* hv := vset hv id (m61_sub (m61_add (m61_mul (m61_of h0) (fst pt)) x) (m61_mul y (fst pt))) in
    Ok (hv, pows)) (hv, pows).
(* a call on one of several objects; the state is the static tables *)
Definition rh_step (bases : list Z) (objs : list (list (list Z))) (pows : list (list Z)) (c : rh_call) : res (list Z * list (list Z)) :=
  match c with
  | RhSub k l r => let* o := vget objs k in rh_sub bases pows o l r
  | RhConcat h k l r => let* o := vget objs k in rh_concat bases pows o h l r
  end.
Definition rh_make_all (bases : list Z) (strs : list (list Z)) : res (list (list (list Z))) :=
  for_each strs (fun s os => let* o := rh_make bases s in Ok (os ++ [o])) [].
