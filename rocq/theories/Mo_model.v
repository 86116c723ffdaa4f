(* Model of library/algorithm/mo.hpp. *)
From Verif Require Import Base.

(* mo.hpp:19-24: the comparator, on the two queries; b is the bucket size *)
Definition mo_less (b : Z) (p q : Z * Z) : bool :=
  let '(li, ri) := p in let '(lj, rj) := q in
  let bi := Z.quot li b in let bj := Z.quot lj b in
  if negb (bi =? bj) then bi <? bj
  else if negb (ri =? rj) then (if negb (Z.land bi 1 =? 0) then rj <? ri else ri <? rj)
  else li <? lj.

Section Mo.
  (* the user's data structure and callbacks *)
  Context {S T : Type}.
  Variable eval : S -> res T.
  Variables add_l del_l add_r del_r : Z -> S -> res S.
  (* mo.hpp:50-57: one query; the state is (l, r, s, results) *)
  Definition mo_query (qs : list (Z * Z)) (qi : Z) (st : Z * Z * S * list (option T)) : res (Z * Z * S * list (option T)) :=
    let '(l, r, s, out) := st in
    let* (nl, nr) := vget qs qi in
    let* s := for_ r nr add_r s in
    let r := Z.max r nr in
    let* s := ford_ l nl (fun i => add_l (i - 1)) s in
    let l := Z.min l nl in
    let* s := ford_ r nr (fun i => del_r (i - 1)) s in
    let r := nr in
    let* s := for_ l nl del_l s in
    let l := nl in
    let* x := eval s in
    let* out := vset out qi (Some x) in
    Ok (l, r, s, out).
  (* mo.hpp:46-59; ord is the order computed by the constructor, s the user's state at the start;
     the answers start out as default values, here None *)
  Definition mo_solve (qs : list (Z * Z)) (ord : list Z) (s : S) : res (list (option T)) :=
    let* (_, _, _, out) := for_each ord (mo_query qs) (0, 0, s, vrep (zlen qs) None) in Ok out.
End Mo.
