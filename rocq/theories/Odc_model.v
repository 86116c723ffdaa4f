(* Model of library/algorithm/offline_dynamic_connectivity.hpp. *)
From Verif Require Import Base UnionFind_model Odc_spec.

(* lines 59-62.  The multimap is the list of its entries in order of insertion; its iteration order is not modelled
   (it only fixes the order of the entries of active_range), and find returns the oldest entry with the key. *)
Record odc := mkODC { d_n : Z; d_active : list (Z * Z * Z); d_range : list (Z * Z * Z * Z); d_qs : list (Z * Z) }.
Definition odc_new (n : Z) : odc := mkODC n [] [] [].
(* find and erase the first entry with the key *)
Fixpoint mm_take (e : Z * Z) (a : list (Z * Z * Z)) : option (Z * list (Z * Z * Z)) :=
  match a with
  | [] => None
  | (f, t) :: a => if (fst f =? fst e) && (snd f =? snd e) then Some (t, a) else match mm_take e a with None => None | Some (t', a') => Some (t', (f, t) :: a') end
  end.
(* lines 14-25 *)
Definition odc_step (d : odc) (o : dop) : res odc :=
  match o with
  | DAdd u v => Ok (mkODC (d_n d) (d_active d ++ [(edge u v, zlen (d_qs d))]) (d_range d) (d_qs d))
  | DDel u v => match mm_take (edge u v) (d_active d) with
                | None => Abort
                | Some (t, a) => Ok (mkODC (d_n d) a (d_range d ++ [(u, v, t, zlen (d_qs d))]) (d_qs d))
                end
  | DAsk u v => Ok (mkODC (d_n d) (d_active d) (d_range d) (d_qs d ++ [(u, v)]))
  end.
(* lines 36-39: the loop that stores one edge at the nodes covering [l, r) *)
Definition odc_cover (u v : Z) (st : Z * Z * list (list (Z * Z))) : res ((Z * Z * list (list (Z * Z))) + list (list (Z * Z))) :=
  let '(l, r, seg) := st in
  if l <? r then
    let* (l, seg) := (if negb (Z.land l 1 =? 0) then let* x := vget seg l in let* seg := vset seg l (x ++ [(u, v)]) in Ok (l + 1, seg) else Ok (l, seg)) in
    let* (r, seg) := (if negb (Z.land r 1 =? 0) then let* x := vget seg (r - 1) in let* seg := vset seg (r - 1) (x ++ [(u, v)]) in Ok (r - 1, seg) else Ok (r, seg)) in
    Ok (inl (Z.shiftr l 1, Z.shiftr r 1, seg))
  else Ok (inr seg).
Definition odc_put (q : Z) (e : Z * Z * Z * Z) (seg : list (list (Z * Z))) : res (list (list (Z * Z))) :=
  let '(u, v, l, r) := e in loop (Z.to_nat (2 * q) + 1) (odc_cover u v) (l + q, r + q, seg).
(* lines 43-55 *)
Fixpoint odc_dfs (fuel : nat) (q : Z) (seg : list (list (Z * Z))) (qs : list (Z * Z)) (k : Z) (s : uuf) (ans : list bool) : res (uuf * list bool) :=
  match fuel with
  | O => OutOfFuel
  | S fuel =>
      let* es := vget seg k in
      let* (cnt, s) := for_each es (fun e st => let '(c, s) := st in let* (b, s) := uuf_merge s (fst e) (snd e) in Ok (c + (if b then 1 else 0), s)) (0, s) in
      let* (s, ans) := (if q <=? k then
          let* (u, v) := vget qs (k - q) in
          let* b := uuf_same s u v in
          let* ans := vset ans (k - q) b in Ok (s, ans)
        else
          let* (s, ans) := odc_dfs fuel q seg qs (2 * k) s ans in
          odc_dfs fuel q seg qs (2 * k + 1) s ans) in
      let* s := for_ 0 cnt (fun _ s => uuf_undo s) s in
      Ok (s, ans)
  end.
(* lines 27-58; returns the answers and the object, whose active set is now empty *)
Definition odc_answer (d : odc) : res (list bool * odc) :=
  let q := zlen (d_qs d) in
  let rng := d_range d ++ map (fun e => (fst (fst e), snd (fst e), snd e, q)) (d_active d) in
  let d' := mkODC (d_n d) [] rng (d_qs d) in
  if q =? 0 then Ok ([], d') else
  let* seg := for_each rng (odc_put q) (vrep (2 * q) []) in
  let* (_, ans) := odc_dfs (Z.to_nat (Z.log2 q) + 2) q seg (d_qs d) 1 (uuf_init (d_n d)) (vrep q false) in
  Ok (ans, d').
Definition odc_run (n : Z) (ops : list dop) : res odc := for_each ops (fun o d => odc_step d o) (odc_new n).
