(* Running an expression tree with the modelled operators. *)
From Verif Require Import Base Modint_model Modint_spec.

Fixpoint sm_eval (m : Z) (e : mexpr) : res Z :=
  match e with
  | CSigned v => Ok (sm_of_signed m v)
  | CUnsigned v => Ok (sm_of_unsigned m v)
  | EAdd a b => let* x := sm_eval m a in let* y := sm_eval m b in Ok (sm_add m x y)
  | ESub a b => let* x := sm_eval m a in let* y := sm_eval m b in Ok (sm_sub m x y)
  | EMul a b => let* x := sm_eval m a in let* y := sm_eval m b in Ok (sm_mul m x y)
  | ENeg a => let* x := sm_eval m a in Ok (sm_neg m x)
  | EInc a => let* x := sm_eval m a in Ok (sm_inc m x)
  | EDec a => let* x := sm_eval m a in Ok (sm_dec m x)
  | EPow a n => let* x := sm_eval m a in sm_pow m x n
  end.

Fixpoint dm_eval (b : barrett128) (e : mexpr) : res Z :=
  match e with
  | CSigned v => Ok (dm_of_signed b v)
  | CUnsigned v => Ok (dm_of_unsigned b v)
  | EAdd a c => let* x := dm_eval b a in let* y := dm_eval b c in Ok (dm_add b x y)
  | ESub a c => let* x := dm_eval b a in let* y := dm_eval b c in Ok (dm_sub b x y)
  | EMul a c => let* x := dm_eval b a in let* y := dm_eval b c in Ok (dm_mul b x y)
  | ENeg a => UB   (* no such operator *)
  | EInc a => let* x := dm_eval b a in Ok (dm_inc b x)
  | EDec a => let* x := dm_eval b a in Ok (dm_dec b x)
  | EPow a n => let* x := dm_eval b a in dm_pow b x n
  end.
