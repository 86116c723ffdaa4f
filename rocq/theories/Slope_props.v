(* C89: SlopeTrick keeps the minimum and the set of minimisers of the function built by the calls. *)
From Verif Require Import Base BaseLemmas Slope_spec Slope_model Slope_proof.
From Coq Require Import Permutation.

(* For every history of calls whose parameters stay well below inf, no call fails, the history describes a function f on the
   integers, min() is its least value, and argmin_range() is exactly the set of its minimisers (inf stands for "unbounded"). *)
Theorem slope_min_argmin inf os : Forall sop_ok os -> 2 * reach os < inf ->
  exists s f lo hi, sl_run inf os = Ok s /\ described os f /\ least f (fun _ => True) (sl_min s) /\
    sl_argmin s = Ok (lo, hi) /\ forall x, Z.abs x <= inf - reach os -> (f x = sl_min s <-> lo <= x <= hi).
Proof.
  intros FO HR. destruct (run_ok inf os FO HR) as (s & f & L & R & E & D & I). destruct (tl inf _ s f L R I HR) as (tl & ETL & CL). destruct (tr inf _ s f L R I HR) as (tr & ETR & CR). exists s, f, (tl + s_al s), (tr + s_ar s). pose proof (reach_nn os) as RN.
  pose proof I as [A1 A2 A3 A4 A5 A6 A7 A8]. split; [auto|]. split; [auto|]. split; [|split; [unfold sl_argmin; rewrite ETL; cbn [bind]; rewrite ETR; auto|]].
  - split; [|intros y _; rewrite A3; pose proof (SL_nn (at_ (s_al s) L) y); pose proof (SR_nn (at_ (s_ar s) R) y); unfold sl_min; lia].
    assert (X : exists x, SL (at_ (s_al s) L) x = 0 /\ SR (at_ (s_ar s) R) x = 0).
    { destruct CL as [(-> & _)|(IL & ML)].
      - destruct CR as [(-> & _)|(IR & MR)]; [exists 0; auto|]. exists (tr + s_ar s). split; [auto|]. apply SR_0. intros p P. apply In_at in P. specialize (MR _ P). lia.
      - exists (tl + s_al s). split; [apply SL_0; intros p P; apply In_at in P; specialize (ML _ P); lia|]. apply SR_0. intros p P. apply In_at in P. specialize (A8 tl _ IL P). lia. }
    destruct X as (x & X1 & X2). exists x. split; [auto|]. rewrite A3, X1, X2. unfold sl_min. lia.
  - intros x Hx. rewrite A3. unfold sl_min. pose proof (SL_nn (at_ (s_al s) L) x). pose proof (SR_nn (at_ (s_ar s) R) x).
    assert (QL : SL (at_ (s_al s) L) x = 0 <-> tl + s_al s <= x). { rewrite SL_0. destruct CL as [(-> & ->)|(IL & ML)]; [split; [lia|intros _ p []]|]. split; [intro K; apply K; apply In_at; replace (tl + s_al s - s_al s) with tl by lia; auto|]. intros K p P. apply In_at in P. specialize (ML _ P). lia. }
    assert (QR : SR (at_ (s_ar s) R) x = 0 <-> x <= tr + s_ar s). { rewrite SR_0. destruct CR as [(-> & ->)|(IR & MR)]; [split; [lia|intros _ p []]|]. split; [intro K; apply K; apply In_at; replace (tr + s_ar s - s_ar s) with tr by lia; auto|]. intros K p P. apply In_at in P. specialize (MR _ P). lia. }
    split; [intro Q; split; [apply QL|apply QR]; lia|]. intros (K1 & K2). apply QL in K1. apply QR in K2. lia.
Qed.
Print Assumptions slope_min_argmin.

(* the calls leave no freedom: the described function is unique, so the statement above is about the user's function *)
Theorem slope_function_unique os f f' : described os f -> described os f' -> forall x, f x = f' x.
Proof. intros D D'. apply (described_unique os f D f' D'). Qed.
Print Assumptions slope_function_unique.

(* the hypotheses are met: |x - 3| + max(0, x - 5), window minimum over [x - 2, x + 1], + |x|, prefix minimum, shift by 4 *)
Example slope_example : Forall sop_ok [AddAbs 3; AddRight 5; Slide (-1) 2; AddAbs 0; CumMinLeft; Translate 4] /\ 2 * reach [AddAbs 3; AddRight 5; Slide (-1) 2; AddAbs 0; CumMinLeft; Translate 4] < 2 ^ 62 /\
  (let* s := sl_run (2 ^ 62) [AddAbs 3; AddRight 5; Slide (-1) 2; AddAbs 0] in let* p := sl_argmin s in Ok (sl_min s, p)) = Ok (2, (0, 2)) /\
  (let* s := sl_run (2 ^ 62) [AddAbs 3; AddRight 5; Slide (-1) 2; AddAbs 0; CumMinLeft; Translate 4] in let* p := sl_argmin s in Ok (sl_min s, p)) = Ok (2, (4, 2 ^ 62 + 6)).
Proof. split; [repeat constructor; cbn; lia|]. split; [vm_compute; reflexivity|]. split; vm_compute; reflexivity. Qed.
