(* Calls on the Fenwick trees as history steps. *)
From Verif Require Import Base Fenwick_model Fenwick_spec.
Section Run.
  Context {T : Type}.
  Variables (zero : T) (add sub : T -> T -> T) (neg : T -> T).
  Definition fstep (s : fen T) (o : fop T) : res (fout T * fen T) :=
    match o with
    | FAdd i v => let* s := fen_add add s i v in Ok (FUnit, s)
    | FSub i v => let* s := fen_sub add neg s i v in Ok (FUnit, s)
    | FSet i v => let* s := fen_set zero add sub s i v in Ok (FUnit, s)
    | FSum l r => let* x := fen_sum zero add sub s l r in Ok (FVal x, s)
    | FGet i => let* x := fen_get zero add sub s i in Ok (FVal x, s)
    end.
  Definition pstep (op : T -> T -> T) (e : T) (s : fpre T) (o : pop T) : res (fout T * fpre T) :=
    match o with
    | PApply i v => let* s := fpre_apply op s i v in Ok (FUnit, s)
    | PQuery r => let* x := fpre_query op e s r in Ok (FVal x, s)
    end.
  Definition f2step (s : fen2 T) (o : f2op T) : res (fout T * fen2 T) :=
    match o with
    | F2Add i j v => let* s := fen2_add add s i j v in Ok (FUnit, s)
    | F2Sum xl xr yl yr => let* x := fen2_sum zero add sub s xl xr yl yr in Ok (FVal x, s)
    end.
End Run.
