(* util/default_vector.hpp.  T is a scalar type: default_value is uninitialised (None) until set_default_value is called and reading it then is undefined behaviour. *)
From Verif Require Import Base DVec_spec.
Section M.
  Context {T : Type}.
  (* library/util/default_vector.hpp:8 the base vector and :40 default_value *)
  Record dvec := DV { dv_d : option T; dv_v : list T }.
  Definition dflt (s : dvec) : res T := match dv_d s with Some d => Ok d | None => UB end.
  (* library/util/default_vector.hpp:11-13 *)
  Definition dv_set_default (s : dvec) (d : T) : dvec := DV (Some d) (dv_v s).
  (* library/util/default_vector.hpp:41-43: the index is converted to unsigned int *)
  Definition dv_oob (s : dvec) (i : Z) : bool := zlen (dv_v s) <=? u32 i.
  (* library/util/default_vector.hpp:36-38: a negative n becomes a huge size_t and std::vector throws length_error *)
  Definition dv_resize (s : dvec) (n : Z) : res dvec :=
    if n <? 0 then Abort else
    if n <=? zlen (dv_v s) then Ok (DV (dv_d s) (firstn (Z.to_nat n) (dv_v s))) else
    let* d := dflt s in
    Ok (DV (dv_d s) (dv_v s ++ vrep (n - zlen (dv_v s)) d)).
  (* library/util/default_vector.hpp:17-20, 24-26: operator[] and at on a non-const vector; the reference is then read or written *)
  Definition dv_ref (s : dvec) (i : Z) : res dvec :=
    if dv_oob s i then let* j := i32 (i + 1) in dv_resize s j else Ok s.
  Definition dv_read (s : dvec) (i : Z) : res (dvec * T) :=
    let* s := dv_ref s i in let* x := vget (dv_v s) i in Ok (s, x).
  Definition dv_write (s : dvec) (i : Z) (x : T) : res dvec :=
    let* s := dv_ref s i in let* v := vset (dv_v s) i x in Ok (DV (dv_d s) v).
  (* library/util/default_vector.hpp:14-16, 21-23, 27-29: operator[], at on a const vector and get_or_default *)
  Definition dv_get (s : dvec) (i : Z) : res T := if dv_oob s i then dflt s else vget (dv_v s) i.
  (* library/util/default_vector.hpp:30-32 *)
  Definition dv_get_or (s : dvec) (i : Z) (t : T) : res T := if dv_oob s i then Ok t else vget (dv_v s) i.
  (* library/util/default_vector.hpp:33-35 *)
  Definition dv_size (s : dvec) : Z := zlen (dv_v s).
  (* a history, most recent operation first *)
  Fixpoint dv_run (s : dvec) (h : list (dop T)) : res dvec :=
    match h with
    | [] => Ok s
    | o :: h => let* s := dv_run s h in
      match o with
      | Write i x => dv_write s i x
      | Touch i => let* r := dv_read s i in Ok (fst r)
      | Resize n => dv_resize s n
      end
    end.
End M.
Arguments dvec : clear implicits.
