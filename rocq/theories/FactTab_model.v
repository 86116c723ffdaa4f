(* Model of library/math/factorial.hpp, inv_mods.hpp and pow_mods.hpp for a modint type with
   modulus p.  Modint values are integers in [0, p).  Table sizes are unbounded (int in C++). *)
From Verif Require Import Base.

Section Mint.
  Variable p : Z.
  (* modint product; an int factor is reduced by its conversion *)
  Definition mm (a b : Z) : Z := (a * b) mod p.
  (* U(1) / x and x.inv() of a modint with prime modulus: asserts x != 0, then x^(p-2) *)
  Definition mrec (x : Z) : res Z := assert_ (negb (x =? 0)) ;;; Ok (x ^ (p - 2) mod p).

  (* ---- factorial.hpp ---- *)
  Definition ftab : Type := list Z * list Z. (* _fac, _fac_inv *)
  Definition ft_new : ftab := ([1 mod p], [1 mod p]). (* factorial.hpp:65-67 *)
  (* factorial.hpp:18 *)
  Definition ft_up (i : Z) (f : list Z) : res (list Z) := let* x := vget f (i - 1) in vset f i (mm x i).
  (* factorial.hpp:20 *)
  Definition ft_down (i : Z) (g : list Z) : res (list Z) := let* x := vget g i in vset g (i - 1) (mm x i).
  (* factorial.hpp:13-21 *)
  Definition ft_ensure (n : Z) (t : ftab) : res ftab :=
    let '(f, g) := t in
    let sz := zlen f in
    if n + 1 <=? sz then Ok t else
    let new := Z.max (n + 1) (sz * 2) in
    let f := f ++ vrep (new - sz) 0 in
    let g := g ++ vrep (new - zlen g) 0 in
    let* f := for_ sz new ft_up f in
    let* x := vget f (new - 1) in
    let* y := mrec x in
    let* g := vset g (new - 1) y in
    let* g := ford_ (new - 1) sz ft_down g in
    Ok (f, g).
  Inductive fop := FFac (i : Z) | FInv (i : Z) | FBinom (n r : Z) | FPerm (n r : Z) | FPoly (n : Z) (ds : list Z).
  (* factorial.hpp:44-48, loop of polynom; None: return 0 *)
  Fixpoint ft_poly (g : list Z) (n : Z) (ds : list Z) (sumd r : Z) : res (option (Z * Z)) :=
    match ds with
    | [] => Ok (Some (sumd, r))
    | d :: ds =>
        if (d <? 0) || (n <? d) then Ok None
        else let* x := vget g d in ft_poly g n ds (sumd + d) (mm r x)
    end.
  Definition ft_step (t : ftab) (o : fop) : res (Z * ftab) :=
    match o with
    | FFac i => (* factorial.hpp:23-26 *)
        let* t := ft_ensure i t in let* x := vget (fst t) i in Ok (x, t)
    | FInv i => (* factorial.hpp:30-33 *)
        let* t := ft_ensure i t in let* x := vget (snd t) i in Ok (x, t)
    | FBinom n r => (* factorial.hpp:34-38 *)
        if (n <? 0) || (r <? 0) || (n <? r) then Ok (0, t) else
        let* t := ft_ensure n t in
        let* a := vget (fst t) n in let* b := vget (snd t) r in let* c := vget (snd t) (n - r) in
        Ok (mm (mm a b) c, t)
    | FPerm n r => (* factorial.hpp:54-58 *)
        if (n <? 0) || (r <? 0) || (n <? r) then Ok (0, t) else
        let* t := ft_ensure n t in
        let* a := vget (fst t) n in let* c := vget (snd t) (n - r) in
        Ok (mm a c, t)
    | FPoly n ds => (* factorial.hpp:40-53 *)
        if n <? 0 then Ok (0, t) else
        let* t := ft_ensure n t in
        let* a := vget (fst t) n in
        let* x := ft_poly (snd t) n ds 0 a in
        match x with
        | None => Ok (0, t)
        | Some (sumd, r) => if n <? sumd then Ok (0, t) else let* c := vget (snd t) (n - sumd) in Ok (mm r c, t)
        end
    end.

  (* ---- inv_mods.hpp ---- *)
  (* inv_mods.hpp:21 *)
  Definition im_body (i : Z) (v : list Z) : res (list Z) :=
    let* x := vget v (p mod i) in vset v i (mm ((p - p / i) mod p) x).
  (* inv_mods.hpp:16-23 *)
  Definition im_ensure (n : Z) (v : list Z) : res (list Z) :=
    let v := if zlen v <? 2 then [0; 1 mod p] else v in
    let sz := zlen v in
    if sz <? n + 1 then for_ sz (n + 1) im_body (v ++ vrep (n + 1 - sz) 0) else Ok v.
  (* inv_mods.hpp:12-15; the state is the static table *)
  Definition im_step (v : list Z) (i : Z) : res (Z * list Z) :=
    let* v := im_ensure i v in let* x := vget v i in Ok (x, v).

  (* inv_mods.hpp:32-54 *)
  Definition gi_prod (e q : Z) : res Z := let q := mm q e in assert_ (negb (e =? 0)) ;;; Ok q.
  Definition gi_right (vs : list Z) (i : Z) (rp : list Z) : res (list Z) := (* loop index i + 1 *)
    let* x := vget rp i in let* v := vget vs (i - 1) in vset rp (i - 1) (mm x v).
  Definition gi_body (vs rp : list Z) (i : Z) (st : list Z * Z) : res (list Z * Z) :=
    let '(r, ip) := st in
    let* x := vget rp (i + 1) in
    let* r := vset r i (mm ip x) in
    let* v := vget vs i in
    Ok (r, mm ip v).
  Definition get_invs (vs : list Z) : res (list Z) :=
    let n := zlen vs in
    let* q := for_each vs gi_prod (1 mod p) in
    let* ip := mrec q in
    let* rp := vset (vrep (n + 1) 0) n (1 mod p) in
    let* rp := ford_ n 0 (gi_right vs) rp in
    let* (r, _) := for_ 0 n (gi_body vs rp) (vrep n 0, ip) in
    Ok r.

  (* ---- pow_mods.hpp:32-52 (static_pow_mods, lines 7-27, is the same with a static table) ---- *)
  Definition pw_body (base i : Z) (v : list Z) : res (list Z) := let* x := vget v (i - 1) in vset v i (mm base x).
  Definition pw_ensure (base n : Z) (v : list Z) : res (list Z) :=
    let sz := zlen v in
    if n <? sz then Ok v else for_ sz (n + 1) (pw_body base) (v ++ vrep (n + 1 - sz) 0).
  Definition pw_step (base : Z) (v : list Z) (i : Z) : res (Z * list Z) :=
    let* v := pw_ensure base i v in let* x := vget v i in Ok (x, v).
End Mint.
