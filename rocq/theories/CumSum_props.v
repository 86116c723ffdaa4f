(* Properties C64 and C65. *)
From Verif Require Import Base BaseLemmas Seq Hist Fenwick_spec CumSum_model CumSum_spec.
From Verif Require CumSum_proof CumSum_proof2.

(* C64: after construction from [a] and any number of push_backs, sum(l, r) is the sum
   of the elements l..r-1 of everything put in; other arguments fail the assertion. *)
Theorem cumulative_sum_correct :
  forall (T : Type) (zero : T) add sub neg, is_abgroup zero add sub neg ->
  forall a vs, exists c,
    (let* c := cs_of zero add a in for_each vs (fun v c => cs_push_back zero add c v) c) = Ok c /\
    forall l r, 0 <= l -> 0 <= r ->
    cs_sum sub c l r = if (l <=? r) && (r <=? zlen (a ++ vs)) then Ok (range_sum zero add (a ++ vs) l r) else Abort.
Proof.
  intros T zero add sub neg G a vs. destruct (CumSum_proof.cs_of_ok zero add sub neg G a) as (c & -> & I). cbn [bind].
  assert (L : exists c', for_each vs (fun v c => cs_push_back zero add c v) c = Ok c' /\ CumSum_proof.cs_inv zero add (a ++ vs) c').
  { revert a c I. induction vs as [|v vs IH]; intros a c I; cbn [for_each].
    - exists c. rewrite app_nil_r. auto.
    - destruct (CumSum_proof.cs_push_ok zero add sub neg G a c v I) as (c1 & -> & I1). cbn [bind].
      destruct (IH _ _ I1) as (c2 & E2 & I2). exists c2. split; auto. now rewrite <- app_assoc in I2. }
  destruct L as (c' & E & I'). exists c'. split; auto. intros l r Hl Hr. now apply (CumSum_proof.cs_sum_ok zero add sub neg G).
Qed.
Print Assumptions cumulative_sum_correct.
Example cumulative_sum_example :
  (let* c := cs_of 0 Z.add [3; 1; 4] in let* c := cs_push_back 0 Z.add c 1 in let* c := cs_push_back 0 Z.add c 5 in cs_sum Z.sub c 1 5) = Ok 11.
Proof. vm_compute. reflexivity. Qed.

(* C64, finding: a default-constructed object cannot be used: [n] is indeterminate. *)
Theorem cumulative_sum_default_refuted :
  exists v : Z, cs_push_back 0 Z.add cs_default v = UB /\ cs_sum Z.sub (cs_default (T := Z)) 0 0 = UB.
Proof. exists 1. split; reflexivity. Qed.
Print Assumptions cumulative_sum_default_refuted.

(* C64: rectangle sums; arguments that are not a rectangle of the table give zero. *)
Theorem cumulative_sum_2d_correct :
  forall (T : Type) (zero : T) add sub neg, is_abgroup zero add sub neg ->
  forall a m, (forall row, In row a -> zlen row = m) -> 0 <= m -> (a = [] -> m = 0) ->
  exists c, cs2_of zero add sub a = Ok c /\
    forall u d l r, 0 <= u -> 0 <= d -> 0 <= l -> 0 <= r ->
    cs2_sum zero add sub c u d l r =
      Ok (if (u <=? d) && (d <=? zlen a) && (l <=? r) && (r <=? m) then rect_sum zero add a u d l r else zero).
Proof.
  intros T zero add sub neg G a m Hm H0 Hz.
  assert (R : CumSum_proof.row_eq (zlen a) m a) by (split; auto).
  destruct (CumSum_proof.cs2_of_ok zero add sub neg G (zlen a) m a R) as (c & E & En & Em & Rs & Hs); auto.
  { intro E. apply Hz. now apply zlen_0_nil. }
  exists c. split; auto. intros u d l r Hu Hd Hl Hr.
  exact (CumSum_proof.cs2_sum_ok zero add sub neg G (zlen a) m a c R En Em Rs Hs u d l r Hu Hl).
Qed.
Print Assumptions cumulative_sum_2d_correct.
Example cumulative_sum_2d_example :
  (let* c := cs2_of 0 Z.add Z.sub [[1; 2; 3]; [4; 5; 6]; [7; 8; 9]] in cs2_sum 0 Z.add Z.sub c 1 3 0 2) = Ok 24.
Proof. vm_compute. reflexivity. Qed.

(* C65: sums over a residue class, unless the class starts past the end of the sequence
   while the range is not trivially empty. *)
Theorem step_sum_correct :
  forall (T : Type) (zero : T) add sub neg, is_abgroup zero add sub neg ->
  forall a step, 1 <= step < 2 ^ 31 -> zlen a < 2 ^ 31 ->
  exists c, ss_of add a step = Ok c /\
    forall k l r, 0 <= k < step -> - 2 ^ 31 < l < 2 ^ 31 -> - 2 ^ 31 < r < 2 ^ 31 ->
    (r <= k \/ r <= l \/ zlen a <= l \/ k < zlen a) ->
    ss_get zero sub c k l r = Ok (step_sum zero add a step k l r).
Proof.
  intros T zero add sub neg G a step Hs Ha. destruct (CumSum_proof2.ss_of_ok zero add sub neg G a step Hs Ha) as (c & E & I & Es & En & Hq).
  exists c. split; auto. intros k l r Hk Hl Hr D. exact (CumSum_proof2.ss_get_ok zero add sub neg G a step Hs Ha k Hk c l r I Es En Hq Hl Hr D).
Qed.
Print Assumptions step_sum_correct.
Example step_sum_example :
  (let* c := ss_of Z.add [1; 2; 3; 4; 5; 6; 7; 8] 3 in ss_get 0 Z.sub c 1 2 8) = Ok 13.
Proof. vm_compute. reflexivity. Qed.

(* C65, finding: with fewer elements than the residue the sum is empty, but the call
   reads out of range. *)
Theorem step_sum_short_refuted :
  exists (a : list Z) step k l r c, 1 <= step /\ 0 <= k < step /\ ss_of Z.add a step = Ok c /\
    ss_get 0 Z.sub c k l r = UB /\ step_sum 0 Z.add a step k l r = 0.
Proof.
  exists [1; 2], 5, 3, 0, 10. destruct (ss_of Z.add [1; 2] 5) as [c| | |] eqn:E; vm_compute in E; try discriminate.
  exists c. injection E as <-. repeat split; try lia; vm_compute; reflexivity.
Qed.
Print Assumptions step_sum_short_refuted.
