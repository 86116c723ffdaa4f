From Verif Require Import Base BaseLemmas Bits Seq Hist Fenwick_model Fenwick_spec Fenwick_run Fenwick_proof.

Lemma node_ext {T} (op : T -> T -> T) e a b j : 0 < j -> (forall i, 0 <= i < j -> a i = b i) -> node op e a j = node op e b j.
Proof. intros Hj H. unfold node. pose proof (lowbit_bound j Hj). apply prod_ext. intros; apply H; lia. Qed.
Lemma FInv_ext {T} (op : T -> T -> T) e off n d a b : (forall i, 0 <= i < n -> a i = b i) -> FInv op e off n d a -> FInv op e off n d b.
Proof.
  intros H [L I]. split; auto. intros j Hj. rewrite I by auto. f_equal. apply node_ext; [lia|]. intros; apply H; lia.
Qed.
Lemma slice_map {A B} (f : A -> B) l r v : slice l r (map f v) = map f (slice l r v).
Proof. unfold slice. now rewrite skipn_map, firstn_map. Qed.

Section F2.
  Context {T : Type}.
  Variables (zero : T) (add sub : T -> T -> T) (neg : T -> T).
  Hypothesis G : is_abgroup zero add sub neg.
  Let M := ab_monoid zero add sub neg G.
  Let C := ab_comm _ _ _ _ G.

  Lemma fubini (a : Z -> Z -> T) lx rx ly ry :
    prod_ add zero (fun j => prod_ add zero (fun i => a i j) lx rx) ly ry =
    prod_ add zero (fun i => prod_ add zero (fun j => a i j) ly ry) lx rx.
  Proof.
    transitivity (prod_ add zero (fun j => prodn add zero (fun i => a i j) lx (Z.to_nat (rx - lx))) ly ry); [reflexivity|].
    transitivity (prodn add zero (fun i => prod_ add zero (fun j => a i j) ly ry) lx (Z.to_nat (rx - lx))); [|reflexivity].
    generalize (Z.to_nat (rx - lx)) as kx. intro kx. revert lx. induction kx as [|kx IH]; intro lx.
    - cbn [prodn]. apply prod_e; auto.
    - cbn [prodn]. rewrite <- (IH (lx + 1)). rewrite (prod_mul add zero M C). reflexivity.
  Qed.

  (* row x-1 of the table *)
  Definition cfun (a : Z -> Z -> T) (x : Z) : Z -> T := fun j => node add zero (fun i => a i j) x.
  Definition I2 (n m : Z) (data : list (list T)) (a : Z -> Z -> T) : Prop :=
    zlen data = n /\ forall x, 1 <= x <= n -> exists row, vget data (x - 1) = Ok row /\ FInv add zero 1 m row (cfun a x).

  Lemma row_loop m x v : forall fuel y row row' (data : list (list T)), 0 <= x - 1 < zlen data ->
    loop fuel (fun '(i, data) =>
      if i <=? m then
        let* c := vget data (i - 1) in
        let* data := vset data (i - 1) (add c v) in
        Ok (inl (i + lowbit i, data))
      else Ok (inr data)) (y, row) = Ok row' ->
    loop fuel (fun '(y, data) =>
          if y <=? m then
            let* row := vget data (x - 1) in
            let* c := vget row (y - 1) in
            let* row := vset row (y - 1) (add c v) in
            let* data := vset data (x - 1) row in
            Ok (inl (y + lowbit y, data))
          else Ok (inr data)) (y, zupd data (x - 1) row) = Ok (zupd data (x - 1) row').
  Proof.
    induction fuel as [|k IH]; intros y row row' data Hx E; [discriminate|]. cbn [loop] in *.
    destruct (y <=? m).
    - rewrite vget_zupd_same by auto. cbn [bind]. destruct (vget row (y - 1)) as [c| | |]; cbn [bind] in *; try discriminate.
      destruct (vset row (y - 1) (add c v)) as [r| | |] eqn:Er; cbn [bind] in *; try discriminate.
      rewrite vset_ok by (rewrite zlen_zupd; auto). cbn [bind]. rewrite zupd_zupd_same. apply IH; auto.
    - cbn [bind] in *. injection E as <-. auto.
  Qed.

  Lemma add2_ok n m s a p q v : f2_n s = n -> f2_m s = m -> I2 n m (f2_data s) a -> 0 <= p < n -> 0 <= q < m ->
    exists s', fen2_add add s p q v = Ok s' /\ f2_n s' = n /\ f2_m s' = m /\
      I2 n m (f2_data s') (fun i j => if (i =? p) && (j =? q) then add (a i j) v else a i j).
  Proof.
    intros En Em [L H] Hp Hq. unfold fen2_add. rewrite En, Em.
    set (a' := fun i j => if (i =? p) && (j =? q) then add (a i j) v else a i j).
    assert (Hcf : forall x j, 1 <= x -> cfun a' x j = if covb x p then (if j =? q then add (cfun a x j) v else cfun a x j) else cfun a x j).
    { intros x j Hx. unfold cfun, a'. destruct (j =? q) eqn:Ej.
      - rewrite (node_ext add zero _ (fun k => if k =? p then add (a k j) v else a k j)) by (try lia; intros; now rewrite andb_true_r).
        apply (node_upd add zero M C (fun k => a k j)).
      - rewrite (node_ext add zero _ (fun k => a k j)) by (try lia; intros; now rewrite andb_false_r). now destruct (covb x p). }
    destruct (loop_inv (fun '(i, d) => cov i p /\ p + 1 <= i /\ zlen d = n /\
       forall x, 1 <= x <= n -> exists row, vget d (x - 1) = Ok row /\
         FInv add zero 1 m row (if covb x p && (x <? i) then cfun a' x else cfun a x))
      (fun '(i, _) => Z.to_nat (n + 1 - i)) (fun d => I2 n m d a') (fun '(x, data) =>
      if x <=? n then
        let* data := loop (S (Z.to_nat m)) (fun '(y, data) =>
          if y <=? m then
            let* row := vget data (x - 1) in
            let* c := vget row (y - 1) in
            let* row := vset row (y - 1) (add c v) in
            let* data := vset data (x - 1) row in
            Ok (inl (y + lowbit y, data))
          else Ok (inr data)) (q + 1, data) in
        Ok (inl (x + lowbit x, data))
      else Ok (inr data)) (S (Z.to_nat n)) (p + 1, f2_data s)) as (d & E & Hd).
    - split; [apply cov_self; lia|]. split; [lia|]. split; auto. intros x Hx. destruct (H x Hx) as (row & Er & Fr).
      exists row. split; auto. replace (covb x p && (x <? p + 1)) with false; auto. symmetry. unfold covb. lia.
    - lia.
    - intros (i, d) (Cv & Hi & Ld & Hd). pose proof (lowbit_bound i ltac:(lia)) as Lb. destruct (i <=? n) eqn:B.
      + destruct (Hd i ltac:(lia)) as (row & Er & Fr). replace (i <? i) with false in Fr by lia. rewrite andb_false_r in Fr.
        destruct (add_loop_ok add zero M C 1 ltac:(lia) m row _ q v Fr Hq) as (row' & E' & F').
        pose proof (row_loop m i v _ _ _ _ d ltac:(lia) E') as RL. rewrite (zupd_id _ _ _ Er) in RL. rewrite RL. cbn [bind].
        eexists; split; [reflexivity|]. cbn. split; [|lia].
        split; [apply cov_next; auto; lia|]. split; [lia|]. split; [now rewrite zlen_zupd|].
        intros x Hx. rewrite vget_zupd by lia. destruct (i - 1 =? x - 1) eqn:Ex.
        * exists row'. split; auto. replace x with i by lia. replace (covb i p) with true by (symmetry; now apply covb_spec).
          replace (i <? i + lowbit i) with true by lia. cbn [andb]. refine (FInv_ext _ _ _ _ _ _ _ _ F'). intros j Hj. cbn.
          rewrite Hcf by lia. replace (covb i p) with true by (symmetry; now apply covb_spec). auto.
        * destruct (Hd x Hx) as (rw & Erw & Frw). exists rw. split; auto.
          destruct (covb x p) eqn:Cx; auto. cbn [andb] in *.
          apply covb_spec in Cx. replace (x <? i + lowbit i) with (x <? i); auto.
          assert (~ i < x < i + lowbit i) by (intro; eapply (cov_gap i x p); eauto; lia). lia.
      + eexists; split; [reflexivity|]. cbn. split; auto. intros x Hx. destruct (Hd x Hx) as (row & Er & Fr).
        exists row. split; auto. replace (x <? i) with true in Fr by lia. rewrite andb_true_r in Fr.
        refine (FInv_ext _ _ _ _ _ _ _ _ Fr). intros j Hj. cbn. destruct (covb x p) eqn:Cx; auto.
        rewrite Hcf by lia. now rewrite Cx.
    - rewrite E; cbn [bind]. eauto.
  Qed.

  Lemma sum2_ok n m s a xr yr : f2_n s = n -> f2_m s = m -> I2 n m (f2_data s) a -> 0 <= xr <= n -> 0 <= yr <= m ->
    fen2_sum1 zero add s xr yr = Ok (prod_ add zero (fun i => prod_ add zero (a i) 0 yr) 0 xr).
  Proof.
    intros En Em [L H] Hx Hy. unfold fen2_sum1.
    set (b := fun i => prod_ add zero (a i) 0 yr).
    destruct (loop_inv (fun '(i, acc) => 0 <= i <= n /\ add acc (prod_ add zero b 0 i) = prod_ add zero b 0 xr)
      (fun '(i, _) => Z.to_nat i) (fun y => y = prod_ add zero b 0 xr)
      (fun '(x, acc) => if x =? 0 then Ok (inr acc) else
        let* acc := loop (S (Z.to_nat yr)) (fun '(y, acc) =>
          if y =? 0 then Ok (inr acc) else
          let* row := vget (f2_data s) (x - 1) in
          let* c := vget row (y - 1) in
          Ok (inl (y - lowbit y, add acc c))) (yr, acc) in
        Ok (inl (x - lowbit x, acc))) (S (Z.to_nat xr)) (xr, zero)) as (y & E & Hy').
    - split; auto. apply G.
    - lia.
    - intros (i, x) (Hi & E). destruct (i =? 0) eqn:B.
      + eexists; split; [reflexivity|]. cbn. rewrite <- E. replace i with 0 by lia.
        rewrite prod_nil by lia. symmetry. apply M.
      + destruct (H i ltac:(lia)) as (row & Er & Fr).
        pose proof (sum_loop_ok add zero M C 1 m row _ yr x Fr Hy) as S1.
        assert (S2 : loop (S (Z.to_nat yr)) (fun '(y, acc) =>
          if y =? 0 then Ok (inr acc) else
          let* row := vget (f2_data s) (i - 1) in
          let* c := vget row (y - 1) in
          Ok (inl (y - lowbit y, add acc c))) (yr, x) = Ok (add x (prod_ add zero (cfun a i) 0 yr))).
        { rewrite <- S1. generalize (yr, x) as st. generalize (S (Z.to_nat yr)) as k. induction k; intros [i0 d0]; auto.
          cbn [loop]. destruct (i0 =? 0); cbn [bind]; auto. rewrite Er; cbn [bind].
          destruct (vget row (i0 - 1)); cbn [bind]; auto. }
        rewrite S2. cbn [bind]. eexists; split; [reflexivity|]. cbn.
        pose proof (lowbit_bound i ltac:(lia)). split; [|lia]. split; [lia|].
        rewrite <- E. rewrite (prod_split add zero M b 0 (i - lowbit i) i) by lia.
        rewrite <- (mon_assoc _ _ M). f_equal. rewrite C. f_equal. unfold cfun, node, b. apply fubini.
    - now rewrite E, Hy'.
  Qed.

  Lemma rect_algebra a b c d : add (sub (sub (add (add a b) (add c d)) (add a b)) (add a c)) a = d.
  Proof.
    rewrite (ab_cancel zero add sub neg G).
    set (t := sub (add c d) (add a c)).
    assert (E : add (add a c) t = add c d) by apply (ab_cancel2 zero add sub neg G).
    rewrite (C a c), <- (ab_assoc _ _ _ _ G) in E.
    assert (E2 : sub (add c (add a t)) c = sub (add c d) c) by now rewrite E.
    rewrite !(ab_cancel zero add sub neg G) in E2. now rewrite C.
  Qed.

  Definition FI2 (m : Z) (s : fen2 T) (v : list (list T)) : Prop :=
    f2_n s = zlen v /\ f2_m s = m /\ exists a,
      (forall i, 0 <= i < zlen v -> exists row, vget v i = Ok row /\ rep row m (a i)) /\ I2 (zlen v) m (f2_data s) a.

  Lemma f2step_sim m s v o : FI2 m s v ->
    match f2spec zero add m v o with
    | Ok (r, v') => exists s', f2step zero add sub s o = Ok (r, s') /\ FI2 m s' v'
    | Abort => f2step zero add sub s o = Abort
    | OutOfFuel => False
    | UB => True
    end.
  Proof.
    intros (Hn & Hm & a & R & I). destruct o as [i j x|xl xr yl yr]; cbn [f2spec f2step].
    - destruct (Z.lt_ge_cases i 0) as [B|B]; [unfold vget; now replace (i <? 0) with true by lia|].
      destruct (Z.lt_ge_cases i (zlen v)) as [B'|B'].
      2:{ unfold vget. replace (i <? 0) with false by lia. unfold zlen in B'. rewrite (proj2 (nth_error_None _ _)) by lia. exact Logic.I. }
      destruct (R i ltac:(lia)) as (row & Er & Rr). rewrite Er; cbn [bind]. destruct (Rr) as [Lr _].
      destruct (Z.lt_ge_cases j 0) as [Bj|Bj]; [unfold vget; now replace (j <? 0) with true by lia|].
      destruct (Z.lt_ge_cases j m) as [Bj'|Bj'].
      2:{ unfold vget. replace (j <? 0) with false by lia. unfold zlen in Lr. rewrite (proj2 (nth_error_None _ _)) by lia. exact Logic.I. }
      rewrite (rep_get _ _ _ _ Rr) by lia. cbn [bind].
      destruct (add2_ok _ _ s a i j x Hn Hm I ltac:(lia) ltac:(lia)) as (s' & E & Hn' & Hm' & I'). rewrite E; cbn [bind].
      eexists; split; [reflexivity|]. split; [now rewrite zlen_zupd|]. split; auto.
      eexists; split; [|rewrite zlen_zupd; eauto]. rewrite zlen_zupd. intros k Hk. rewrite vget_zupd by lia.
      destruct (i =? k) eqn:Bk.
      + eexists; split; [reflexivity|]. eapply rep_ext; [apply rep_upd; eauto|]. intros y Hy. cbn. unfold fupd.
        replace (k =? i) with true by lia. cbn [andb]. replace k with i by lia. destruct (y =? j) eqn:By; auto.
        now replace y with j by lia.
      + destruct (R k Hk) as (rk & Erk & Rk). exists rk. split; auto. eapply rep_ext; eauto. intros y Hy. cbn.
        now replace (k =? i) with false by lia.
    - destruct ((0 <=? xl) && (xl <=? xr) && (xr <=? zlen v) && (0 <=? yl) && (yl <=? yr) && (yr <=? m)) eqn:B; auto.
      unfold fen2_sum. rewrite !(sum2_ok (zlen v) m s a) by (auto; lia). cbn [bind].
      eexists; split; [|split; eauto]. f_equal. f_equal. f_equal.
      set (lo := fun i => prod_ add zero (a i) 0 yl). set (hi := fun i => prod_ add zero (a i) yl yr).
      assert (Er : prod_ add zero (fun i => prod_ add zero (a i) 0 yr) 0 xr = add (add (prod_ add zero lo 0 xl) (prod_ add zero hi 0 xl)) (add (prod_ add zero lo xl xr) (prod_ add zero hi xl xr))).
      { rewrite <- !(prod_mul add zero M C). rewrite <- (prod_split add zero M _ 0 xl xr) by lia.
        apply prod_ext. intros i Hi. unfold lo, hi. apply prod_split; auto; lia. }
      assert (El : prod_ add zero (fun i => prod_ add zero (a i) 0 yr) 0 xl = add (prod_ add zero lo 0 xl) (prod_ add zero hi 0 xl)).
      { rewrite <- !(prod_mul add zero M C). apply prod_ext. intros i Hi. unfold lo, hi. apply prod_split; auto; lia. }
      rewrite Er, El. rewrite (prod_split add zero M lo 0 xl xr) by lia.
      rewrite rect_algebra.
      rewrite <- (slice_map (fun row => fold_right add zero (slice yl yr row))).
      symmetry. apply (prod_rep add zero _ (zlen v)); try lia. split; [apply zlen_map|].
      intros i Hi. rewrite vget_map. destruct (R i Hi) as (row & Erw & Rr). rewrite Erw; cbn [bind]. f_equal. unfold hi.
      apply (prod_rep add zero row m); auto; lia.
  Qed.

  Lemma fen2_zero_ok n m : 0 <= n -> 0 <= m -> FI2 m (fen2_zero zero n m) (vrep n (vrep m zero)).
  Proof.
    intros Hn Hm. split; [cbn; now rewrite zlen_vrep|]. split; auto. rewrite zlen_vrep by auto.
    exists (fun _ _ => zero). split.
    - intros i Hi. rewrite vget_vrep by auto. eexists; split; [reflexivity|]. now apply rep_vrep.
    - split; [cbn; now apply zlen_vrep|]. intros x Hx. cbn. rewrite vget_vrep by lia. eexists; split; [reflexivity|].
      split; [rewrite zlen_vrep; lia|]. intros j Hj. rewrite vget_vrep by lia. f_equal. symmetry.
      unfold node at 1. apply prod_e; auto. intros i Hi. unfold cfun, node. apply prod_e; auto.
  Qed.
End F2.

Lemma fenwick_history_ {T} (zero : T) add sub neg v ops : is_abgroup zero add sub neg ->
  snd (run (fspec zero add sub) v ops) <> UB ->
  exists s, fen_of add v = Ok s /\ run (fstep zero add sub neg) s ops = run (fspec zero add sub) v ops.
Proof.
  intros G H. destruct (fen_of_ok zero add sub neg G v) as (s & E & I). exists s. split; auto.
  eapply run_sim with (Inv := FI zero add); eauto. intros; now apply fstep_sim.
Qed.
Lemma fenwick_zero_history_ {T} (zero : T) add sub neg n ops : is_abgroup zero add sub neg -> 0 <= n ->
  snd (run (fspec zero add sub) (vrep n zero) ops) <> UB ->
  run (fstep zero add sub neg) (fen_zero zero n) ops = run (fspec zero add sub) (vrep n zero) ops.
Proof.
  intros G Hn H. eapply run_sim with (Inv := FI zero add); eauto.
  - intros; now apply fstep_sim.
  - eapply fen_zero_ok; eauto.
Qed.
Lemma fenwick_prefix_history_ {T} (op : T -> T -> T) e n ops :
  is_monoid op e -> (forall a b, op a b = op b a) -> 0 <= n ->
  snd (run (pspec op e) (vrep n e) ops) <> UB ->
  run (pstep op e) (fpre_init e n) ops = run (pspec op e) (vrep n e) ops.
Proof.
  intros M C Hn H. eapply run_sim with (Inv := PI op e); eauto.
  - intros; now apply pstep_sim.
  - now apply fpre_init_ok.
Qed.
Lemma fenwick_2d_history_ {T} (zero : T) add sub neg n m ops : is_abgroup zero add sub neg -> 0 <= n -> 0 <= m ->
  snd (run (f2spec zero add m) (vrep n (vrep m zero)) ops) <> UB ->
  run (f2step zero add sub) (fen2_zero zero n m) ops = run (f2spec zero add m) (vrep n (vrep m zero)) ops.
Proof.
  intros G Hn Hm H. eapply run_sim with (Inv := FI2 zero add m); eauto.
  - intros; eapply f2step_sim; eauto.
  - eapply fen2_zero_ok; eauto.
Qed.
