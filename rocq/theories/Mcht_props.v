From Verif Require Import Base BaseLemmas Mcht_spec Mcht_model Mcht_proof Mcht_proof2.
Import ListNotations.
Open Scope Z_scope.

(* C90: every question of an allowed history is answered with the least (greatest) value at x over all lines added so far,
   for each of the three question orders; no assertion fails *)
Theorem mcht_answers : forall tmin tmax is_min k os, tmin <= - tmax -> allowed tmax k [] [] os ->
  exists outs, cht_run tmin tmax is_min k os = Ok outs /\ right_answers is_min [] os outs.
Proof.
  intros tmin tmax is_min k os Ht W. unfold cht_run.
  destruct (run_ok tmin tmax is_min k Ht os [] [] (cht_new tmin tmax k) []) as (h & outs & E & R); [|exact W|].
  - constructor; cbn [cht_new h_lines h_max h_min h_prev map]; try congruence.
    + exact hull_nil.
    + intros x _ p [].
    + auto.
    + intros p [].
    + left; auto.
  - exists outs. rewrite E. cbn [bind app]. auto.
Qed.
Print Assumptions mcht_answers.
Example mcht_ex : cht_run (-128) 127 false QDec [Add 3 1; Add 2 2; Add 5 0; Query 4; Query 0; Add (-1) 40; Add (-2) 60; Query (-10); Query (-15)] = Ok [20; 2; 80; 90]
  /\ allowed 127 QDec [] [] [Add 3 1; Add 2 2; Add 5 0; Query 4; Query 0; Add (-1) 40; Add (-2) 60; Query (-10); Query (-15)].
Proof.
  split; [reflexivity|]. cbn [allowed app].
  repeat (split; [first [lia | discriminate | (left; intros p Hp; cbn [In] in Hp; repeat destruct Hp as [<-|Hp]; cbn [fst]; first [lia | contradiction])
     | (right; intros p Hp; cbn [In] in Hp; repeat destruct Hp as [<-|Hp]; cbn [fst]; first [lia | contradiction])
     | (intros y Hy; cbn [In] in Hy; lia)]|]). exact I.
Qed.

(* With a floating-point T, numeric_limits<T>::min() is the least positive value, so the initial max_slope and prev_x are above
   every negative number: two lines of growing negative slope, or a first question at a negative point, fail an assertion. *)
Theorem mcht_float_refuted : forall tmin tmax, 0 < tmin -> 0 < tmax ->
  cht_run tmin tmax true QAny [Add (-2) 0; Add (-1) 0] = Abort /\
  cht_run tmin tmax true QInc [Add 0 0; Query (-1)] = Abort.
Proof.
  intros tmin tmax H H2. split.
  - unfold cht_run, cht_new. cbn [for_each cht_do cht_add h_min h_max h_lines h_prev].
    destruct (Z.leb_spec (-2) tmax) as [_|F]; [|lia]. cbn [bind for_each cht_do cht_add h_min h_max h_lines h_prev].
    change (-1 <=? -2) with false. cbv iota. destruct (Z.leb_spec (Z.max tmin (-2)) (-1)) as [F|_]; [lia|]. reflexivity.
  - unfold cht_run, cht_new. cbn [for_each cht_do cht_add h_min h_max h_lines h_prev].
    destruct (Z.leb_spec 0 tmax) as [_|F]; [|lia]. cbn [bind for_each cht_do cht_query h_min h_max h_lines h_prev].
    unfold cht_query. cbn [h_prev]. destruct (Z.leb_spec tmin (-1)) as [F|_]; [lia|]. reflexivity.
Qed.
Print Assumptions mcht_float_refuted.
