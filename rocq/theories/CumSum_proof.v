(* Proofs about cumulative sums and step sums. *)
From Verif Require Import Base BaseLemmas ListZ ListMore Seq Fenwick_spec Modint_model Modint_proof2 CumSum_model CumSum_spec.

Section Proof.
  Context {T : Type}.
  Variables (zero : T) (add sub : T -> T -> T) (neg : T -> T).
  Hypothesis G : is_abgroup zero add sub neg.

  Declare Scope grp_scope.
  Local Notation "x + y" := (add x y) : grp_scope.
  Local Notation "x - y" := (sub x y) : grp_scope.
  Delimit Scope grp_scope with g.

  Lemma ab_zero_r x : (x + zero)%g = x. Proof. rewrite (ab_comm _ _ _ _ G). apply G. Qed.
  Lemma ab_mon : is_monoid add zero.
  Proof. constructor; intros; [apply G|apply G|apply ab_zero_r]. Qed.
  Lemma ab_cancel x y : ((x + y) - x)%g = y.
  Proof.
    rewrite (ab_sub _ _ _ _ G), (ab_comm _ _ _ _ G x y), <- (ab_assoc _ _ _ _ G), (ab_neg _ _ _ _ G). apply ab_zero_r.
  Qed.
  Lemma ab_self x : (x - x)%g = zero.
  Proof. rewrite (ab_sub _ _ _ _ G). apply G. Qed.
  Lemma ab_sub_zero x : (x - zero)%g = x.
  Proof. pose proof (ab_cancel zero x) as E. now rewrite (ab_zero _ _ _ _ G) in E. Qed.
  (* interchange *)
  Lemma ab_four a b c d : ((a + b) + (c + d))%g = ((a + c) + (b + d))%g.
  Proof.
    rewrite <- !(ab_assoc _ _ _ _ G). f_equal. rewrite !(ab_assoc _ _ _ _ G). f_equal. apply G.
  Qed.
  Lemma prod_zrange f n : 0 <= n -> fold_right add zero (map f (zrange n)) = prod_ add zero f 0 n.
  Proof.
    intro H. pattern n. apply natlike_ind; [reflexivity| |exact H]. clear n H. intros n Hn IH.
    replace (Z.succ n) with (n + 1) by lia. rewrite zrange_S, map_app, fold_right_app by lia. cbn [map fold_right].
    rewrite (prod_snoc add zero ab_mon f 0 (n + 1)) by lia. replace (n + 1 - 1)%Z with n by lia. rewrite ab_zero_r, <- IH.
    generalize (map f (zrange n)) as l. intro l. induction l as [|x l IHl]; cbn [fold_right].
    - now rewrite (ab_zero _ _ _ _ G).
    - rewrite IHl. apply G.
  Qed.
  Lemma fold_filter (f : Z -> T) p l : fold_right add zero (map f (filter p l)) = fold_right add zero (map (fun i => if p i then f i else zero) l).
  Proof.
    induction l as [|x l IH]; auto. cbn [filter map fold_right]. destruct (p x); cbn [map fold_right]; rewrite IH; auto.
    symmetry. apply G.
  Qed.

  (* ---- one dimension *)
  Definition pre (a : list T) (i : Z) : T := fold_right add zero (firstn (Z.to_nat i) a).
  Definition cs_inv (a : list T) (c : cumsum T) : Prop :=
    cs_n c = Some (zlen a) /\ zlen (cs_s c) = zlen a + 1 /\ forall i, 0 <= i <= zlen a -> vget (cs_s c) i = Ok (pre a i).

  Lemma fold_app l1 l2 : fold_right add zero (l1 ++ l2) = (fold_right add zero l1 + fold_right add zero l2)%g.
  Proof.
    induction l1 as [|x l IH]; cbn [app fold_right]; [now rewrite (ab_zero _ _ _ _ G)|]. rewrite IH. apply G.
  Qed.
  Lemma pre_snoc a i x : vget a i = Ok x -> pre a (i + 1) = (pre a i + x)%g.
  Proof.
    intro H. pose proof (vget_range _ _ _ H). unfold pre. replace (Z.to_nat (i + 1)) with (S (Z.to_nat i)) by lia.
    rewrite (firstn_S_nth a (Z.to_nat i) x) by (now apply vget_nth_error). rewrite fold_app. cbn [fold_right].
    now rewrite ab_zero_r.
  Qed.
  Lemma cs_of_ok a : exists c, cs_of zero add a = Ok c /\ cs_inv a c.
  Proof.
    unfold cs_of. pose proof (zlen_nonneg a) as Hn.
    pose proof (for_inv (fun k s => zlen s = zlen a + 1 /\ forall i, 0 <= i <= k -> vget s i = Ok (pre a i)) 0 (zlen a)
      (fun i s => let* x := vget a i in let* y := vget s i in vset s (i + 1) (add x y)) (vrep (zlen a + 1) zero)) as L.
    destruct L as (s & -> & Ls & Hs).
    - lia.
    - split; [apply zlen_vrep; lia|]. intros i Hi. replace i with 0 by lia. rewrite vget_vrep by lia. reflexivity.
    - intros i s Hi (Ls & Hs). destruct (vget_Ok a i) as (x & Hx); [lia|]. rewrite Hx. cbn [bind]. rewrite Hs by lia. cbn [bind].
      rewrite vset_ok by lia. eexists. split; [reflexivity|]. split; [now rewrite zlen_zupd|]. intros j Hj.
      rewrite vget_zupd by lia. destruct (Z.eqb_spec (i + 1) j) as [<-|N]; [|apply Hs; lia].
      now rewrite (pre_snoc a i x Hx), (ab_comm _ _ _ _ G).
    - cbn [bind]. eexists. split; [reflexivity|]. split; [reflexivity|]. now split.
  Qed.
  Lemma cs_push_ok a c v : cs_inv a c -> exists c', cs_push_back zero add c v = Ok c' /\ cs_inv (a ++ [v]) c'.
  Proof.
    intros (Hn & Hl & H). pose proof (zlen_nonneg a) as Ha. unfold cs_push_back.
    assert (E : match cs_s c with [] => [zero] | s => s end = cs_s c).
    { destruct (cs_s c); auto. change (zlen (@nil T)) with 0 in Hl. lia. }
    cbv zeta. rewrite E. replace (zlen (cs_s c) - 1) with (zlen a) by lia. rewrite H by lia. cbn [bind]. rewrite Hn.
    eexists. split; [reflexivity|]. unfold cs_inv. cbn [cs_n cs_s]. rewrite !zlen_app, !zlen_one, Hl. split; [reflexivity|]. split; [reflexivity|].
    intros i Hi. destruct (Z.eq_dec i (zlen a + 1)) as [->|N].
    - rewrite vget_app2 by lia. rewrite Hl, Z.sub_diag, vget_cons0. f_equal.
      rewrite (pre_snoc (a ++ [v]) (zlen a) v) by (apply vget_mid; reflexivity). f_equal.
      unfold pre. rewrite !firstn_app. unfold zlen. rewrite Nat2Z.id, Nat.sub_diag, firstn_O, app_nil_r. reflexivity.
    - rewrite vget_app1 by lia. rewrite H by lia. f_equal. unfold pre. rewrite firstn_app.
      replace (Z.to_nat i - length a)%nat with O by (unfold zlen in *; lia). now rewrite firstn_O, app_nil_r.
  Qed.
  Lemma pre_split a l r : 0 <= l <= r -> pre a r = (pre a l + range_sum zero add a l r)%g.
  Proof.
    intro H. unfold pre, range_sum, slice. rewrite <- fold_app. f_equal.
    rewrite <- (firstn_skipn (Z.to_nat l) a) at 1. rewrite firstn_app, firstn_firstn, firstn_length.
    replace (Nat.min (Z.to_nat r) (Z.to_nat l)) with (Z.to_nat l) by lia. f_equal.
    destruct (Nat.le_gt_cases (Z.to_nat l) (length a)).
    - f_equal. lia.
    - rewrite skipn_all2 by lia. now rewrite !firstn_nil.
  Qed.
  Lemma cs_sum_ok a c l r : cs_inv a c -> 0 <= l ->
    cs_sum sub c l r = if (l <=? r) && (r <=? zlen a) then Ok (range_sum zero add a l r) else Abort.
  Proof.
    intros (Hn & Hl & H) L0. unfold cs_sum. rewrite Hn. destruct ((l <=? r) && (r <=? zlen a)) eqn:E; cbn [assert_ bind]; auto.
    rewrite !H by lia. cbn [bind]. f_equal. rewrite (pre_split a l r) by lia. apply ab_cancel.
  Qed.

  (* ---- two dimensions *)
  Definition rowf (a : list (list T)) (i j : Z) : T := nth (Z.to_nat j) (nth (Z.to_nat i) a []) zero.
  Definition pre2 (a : list (list T)) (i j : Z) : T := prod_ add zero (fun x => prod_ add zero (rowf a x) 0 j) 0 i.

  Lemma pre2_step a i j : 0 <= i -> 0 <= j ->
    pre2 a (i + 1) (j + 1) = (((rowf a i j + pre2 a (i + 1) j) + pre2 a i (j + 1)) - pre2 a i j)%g.
  Proof.
    intros Hi Hj. unfold pre2 at 1 2. rewrite !(prod_snoc add zero ab_mon _ 0 (i + 1)) by lia.
    replace (i + 1 - 1)%Z with i by lia. fold (pre2 a i (j + 1)) (pre2 a i j).
    rewrite (prod_snoc add zero ab_mon (rowf a i) 0 (j + 1)) by lia. replace (j + 1 - 1)%Z with j by lia.
    set (x := rowf a i j). set (R := prod_ add zero (rowf a i) 0 j). set (P := pre2 a i j). set (Q := pre2 a i (j + 1)).
    replace (((x + (P + R)) + Q))%g with (P + (Q + (R + x)))%g; [symmetry; apply ab_cancel|].
    rewrite (ab_comm _ _ _ _ G (x + (P + R))%g Q), (ab_comm _ _ _ _ G x (P + R)%g), <- (ab_assoc _ _ _ _ G P R x).
    rewrite !(ab_assoc _ _ _ _ G). f_equal. f_equal. apply G.
  Qed.
  Definition row_eq (n m : Z) (a : list (list T)) : Prop := zlen a = n /\ forall row, In row a -> zlen row = m.
  Lemma get2_rowf n m a i j : row_eq n m a -> 0 <= i < n -> 0 <= j < m -> get2 a i j = Ok (rowf a i j).
  Proof.
    intros (Hn & Hm) Hi Hj. unfold get2, rowf. rewrite (vget_nth [] a i) by lia. cbn [bind]. apply vget_nth.
    rewrite Hm; [lia|]. apply nth_In. unfold zlen in Hn; lia.
  Qed.
  Lemma row_eq_set n m a i j x : row_eq n m a -> 0 <= i < n -> 0 <= j < m ->
    exists a', set2 a i j x = Ok a' /\ row_eq n m a' /\
      forall p q, 0 <= p < n -> 0 <= q < m -> rowf a' p q = if (p =? i) && (q =? j) then x else rowf a p q.
  Proof.
    intros (Hn & Hm) Hi Hj. unfold set2. destruct (vget_Ok a i) as (row & Hr); [lia|]. rewrite Hr. cbn [bind].
    pose proof (Hm row (vget_In _ _ _ Hr)) as Lr. rewrite vset_ok by lia. cbn [bind]. rewrite vset_ok by lia.
    eexists. split; [reflexivity|]. split.
    - split; [rewrite zlen_zupd; lia|]. intros row' H. apply In_vget in H. destruct H as (k & Hk & E). rewrite zlen_zupd in Hk.
      rewrite vget_zupd in E by lia. destruct (i =? k); [injection E as <-; now rewrite zlen_zupd|]. apply Hm. eapply vget_In; eauto.
    - intros p q Hp Hq. unfold rowf.
      assert (N : forall (b : list (list T)), zlen b = n -> vget b p = Ok (nth (Z.to_nat p) b [])) by (intros b Hb; apply vget_nth; lia).
      pose proof (N (zupd a i (zupd row j x))) as N1. rewrite zlen_zupd, vget_zupd in N1 by lia. specialize (N1 Hn).
      pose proof (N a Hn) as N2.
      destruct (Z.eqb_spec i p) as [<-|D].
      + rewrite Z.eqb_refl. cbn [andb]. injection N1 as <-. rewrite Hr in N2. injection N2 as <-.
        pose proof (vget_nth zero (zupd row j x) q) as V1. rewrite zlen_zupd, vget_zupd in V1 by lia. specialize (V1 ltac:(lia)).
        destruct (Z.eqb_spec j q) as [<-|D].
        * rewrite Z.eqb_refl. now injection V1 as <-.
        * replace (q =? j) with false by lia. rewrite (vget_nth zero row q) in V1 by lia. now injection V1 as <-.
      + replace (p =? i) with false by lia. cbn [andb]. rewrite N2 in N1. now injection N1 as <-.
  Qed.

  Definition cs2_cell (a : list (list T)) (i j : Z) (s : list (list T)) : res (list (list T)) :=
    let* x := get2 a i j in
    let* p := get2 s (i + 1) j in
    let* q := get2 s i (j + 1) in
    let* r := get2 s i j in
    set2 s (i + 1) (j + 1) (sub (add (add x p) q) r).

  Lemma pre2_0l a j : pre2 a 0 j = zero. Proof. reflexivity. Qed.
  Lemma pre2_0r a i : pre2 a i 0 = zero.
  Proof. unfold pre2. apply (prod_e add zero ab_mon). intros. apply prod_nil. lia. Qed.

  Lemma cs2_cell_ok n m a s i j : row_eq n m a -> 0 <= i < n -> 0 <= j < m -> row_eq (n + 1) (m + 1) s ->
    rowf s (i + 1) j = pre2 a (i + 1) j -> rowf s i (j + 1) = pre2 a i (j + 1) -> rowf s i j = pre2 a i j ->
    exists s', cs2_cell a i j s = Ok s' /\ row_eq (n + 1) (m + 1) s' /\
      forall p q, 0 <= p < n + 1 -> 0 <= q < m + 1 -> rowf s' p q = if (p =? i + 1) && (q =? j + 1) then pre2 a (i + 1) (j + 1) else rowf s p q.
  Proof.
    intros Ra Hi Hj Rs E1 E2 E3. unfold cs2_cell. rewrite (get2_rowf n m a) by auto. cbn [bind].
    rewrite !(get2_rowf (n + 1) (m + 1) s) by (auto; lia). cbn [bind]. rewrite E1, E2, E3, <- pre2_step by lia.
    apply row_eq_set; auto; lia.
  Qed.

  Lemma cs2_of_ok n m a : row_eq n m a -> (n = 0 -> m = 0) -> 0 <= m -> exists c, cs2_of zero add sub a = Ok c /\ c2_n c = n /\ c2_m c = m /\
    row_eq (n + 1) (m + 1) (c2_s c) /\ forall i j, 0 <= i <= n -> 0 <= j <= m -> rowf (c2_s c) i j = pre2 a i j.
  Proof.
    intros Ra Hz Hm. pose proof (zlen_nonneg a) as Hn. pose proof Ra as (La & Lr). unfold cs2_of. cbv zeta. rewrite La.
    assert (Em : (if n =? 0 then Ok 0 else let* row := vget a 0 in Ok (zlen row)) = Ok m).
    { destruct (Z.eqb_spec n 0) as [E|E]; [now rewrite (Hz E)|]. destruct (vget_Ok a 0) as (row & Hr); [lia|]. rewrite Hr. cbn [bind].
      f_equal. apply Lr. eapply vget_In; eauto. }
    rewrite Em. cbn [bind].
    pose (P := fun i j s => row_eq (n + 1) (m + 1) s /\ forall p q, 0 <= p <= n -> 0 <= q <= m ->
        rowf s p q = if (p <=? i) || ((p =? i + 1) && (q <=? j)) then pre2 a p q else zero).
    change (exists c, (let* s := for_ 0 n (fun i s => for_ 0 m (fun j s => cs2_cell a i j s) s) (vrep (n + 1) (vrep (m + 1) zero)) in Ok (CS2 n m s)) = Ok c /\
       c2_n c = n /\ c2_m c = m /\ row_eq (n + 1) (m + 1) (c2_s c) /\ (forall i j, 0 <= i <= n -> 0 <= j <= m -> rowf (c2_s c) i j = pre2 a i j)).
    pose proof (for_inv (fun i s => P i 0 s) 0 n (fun i s => for_ 0 m (fun j s => cs2_cell a i j s) s) (vrep (n + 1) (vrep (m + 1) zero))) as L.
    destruct L as (s & -> & Rs & Hs).
    - lia.
    - assert (R0 : row_eq (n + 1) (m + 1) (vrep (n + 1) (vrep (m + 1) zero))).
      { split; [apply zlen_vrep; lia|]. intros row H. apply repeat_spec in H. subst. apply zlen_vrep; lia. }
      split; auto. intros p q Hp Hq.
      assert (E : rowf (vrep (n + 1) (vrep (m + 1) zero)) p q = zero).
      { pose proof (get2_rowf (n + 1) (m + 1) _ p q R0 ltac:(lia) ltac:(lia)) as E. unfold get2 in E. rewrite vget_vrep in E by lia.
        cbn [bind] in E. rewrite vget_vrep in E by lia. now injection E as <-. }
      rewrite E. destruct (Z.leb_spec p 0); cbn [orb]; [replace p with 0 by lia; reflexivity|].
      destruct ((p =? 0 + 1) && (q <=? 0)) eqn:Eq; auto. replace q with 0 by lia. now rewrite pre2_0r.
    - intros i s Hi Ps.
      pose proof (for_inv (fun j s => P i j s) 0 m (fun j s => cs2_cell a i j s) s) as L2.
      destruct L2 as (s' & E' & Rs' & Hs').
      + lia.
      + exact Ps.
      + clear s Ps. intros j s Hj (Rs & Hs).
        destruct (cs2_cell_ok n m a s i j) as (s' & E' & R' & H'); auto.
        * rewrite Hs by lia. now replace ((i + 1 <=? i) || ((i + 1 =? i + 1) && (j <=? j))) with true by lia.
        * rewrite Hs by lia. now replace ((i <=? i) || ((i =? i + 1) && (j + 1 <=? j))) with true by lia.
        * rewrite Hs by lia. now replace ((i <=? i) || ((i =? i + 1) && (j <=? j))) with true by lia.
        * exists s'. split; auto. split; auto. intros p q Hp Hq. rewrite H' by lia.
          destruct ((p =? i + 1) && (q =? j + 1)) eqn:E1.
          -- replace ((p <=? i) || ((p =? i + 1) && (q <=? j + 1))) with true by lia. now replace p with (i + 1) by lia; replace q with (j + 1) by lia.
          -- rewrite Hs by lia. replace ((p <=? i) || ((p =? i + 1) && (q <=? j))) with ((p <=? i) || ((p =? i + 1) && (q <=? j + 1))) by lia. reflexivity.
      + exists s'. split; auto. split; auto. intros p q Hp Hq. rewrite Hs' by lia.
        destruct ((p <=? i + 1) || ((p =? i + 1 + 1) && (q <=? 0))) eqn:E1.
        * destruct ((p <=? i) || ((p =? i + 1) && (q <=? m))) eqn:E2; auto. replace q with 0 by lia. now rewrite pre2_0r.
        * now replace ((p <=? i) || ((p =? i + 1) && (q <=? m))) with false by lia.
    - cbn [bind]. eexists. split; [reflexivity|]. cbn [c2_n c2_m c2_s]. split; [reflexivity|]. split; [reflexivity|]. split; [exact Rs|].
      intros i j Hi Hj. rewrite Hs by lia. now replace ((i <=? n) || ((i =? n + 1) && (j <=? 0))) with true by lia.
  Qed.

  Lemma rect_prod n m a u d l r : row_eq n m a -> 0 <= u <= d -> d <= n -> 0 <= l <= r -> r <= m ->
    rect_sum zero add a u d l r = prod_ add zero (fun x => prod_ add zero (rowf a x) l r) u d.
  Proof.
    intros (Hn & Hm) Hu Hd Hl Hr. unfold rect_sum.
    assert (E : forall k u, 0 <= u -> u + Z.of_nat k <= n ->
      fold_right add zero (map (fun row => range_sum zero add row l r) (firstn k (skipn (Z.to_nat u) a))) =
      prodn add zero (fun x => prod_ add zero (rowf a x) l r) u k).
    { clear Hu Hd u d. induction k as [|k IH]; intros u Hu Hk; [reflexivity|].
      destruct (vget_Ok a u) as (row & Hrow); [lia|]. destruct (vget_split _ _ _ Hrow) as (a1 & a2 & Ea & Ll).
      assert (Hs : skipn (Z.to_nat u) a = row :: a2).
      { rewrite Ea. replace (Z.to_nat u) with (length a1) by (unfold zlen in Ll; lia).
        rewrite skipn_app, skipn_all, Nat.sub_diag. reflexivity. }
      rewrite Hs. cbn [firstn map fold_right prodn]. f_equal.
      - unfold range_sum. rewrite <- (prod_slice add zero zero row l r) by (try lia; rewrite (Hm row (vget_In _ _ _ Hrow)); lia).
        apply prod_ext. intros i Hi. unfold rowf. f_equal. rewrite (vget_nth [] a u) in Hrow by lia. now injection Hrow as <-.
      - rewrite <- (IH (u + 1)) by lia. do 3 f_equal. replace (Z.to_nat (u + 1)) with (S (Z.to_nat u)) by lia.
        change (S (Z.to_nat u)) with (1 + Z.to_nat u)%nat. clear - Hs. revert a Hs. generalize (Z.to_nat u) as k.
        induction k as [|k IH]; intros a Hs; cbn [skipn plus] in *; [now subst a|]. destruct a as [|y a]; [discriminate|]. now apply IH. }
    unfold slice. rewrite E by lia. reflexivity.
  Qed.

  Lemma pre2_rect a u d l r : 0 <= u <= d -> 0 <= l <= r ->
    ((pre2 a d r + pre2 a u l) - (pre2 a u r + pre2 a d l))%g = prod_ add zero (fun x => prod_ add zero (rowf a x) l r) u d.
  Proof.
    intros Hu Hl.
    assert (S1 : forall j, pre2 a d j = (pre2 a u j + prod_ add zero (fun x => prod_ add zero (rowf a x) 0 j) u d)%g).
    { intro j. unfold pre2. apply (prod_split add zero ab_mon). lia. }
    rewrite (S1 r), (S1 l).
    assert (S2 : prod_ add zero (fun x => prod_ add zero (rowf a x) 0 r) u d =
      (prod_ add zero (fun x => prod_ add zero (rowf a x) 0 l) u d + prod_ add zero (fun x => prod_ add zero (rowf a x) l r) u d)%g).
    { rewrite <- (prod_mul add zero ab_mon (ab_comm _ _ _ _ G)). apply prod_ext. intros. apply (prod_split add zero ab_mon). lia. }
    rewrite S2. set (A := pre2 a u r). set (B := pre2 a u l). set (X := prod_ add zero (fun x => prod_ add zero (rowf a x) 0 l) u d).
    set (Y := prod_ add zero (fun x => prod_ add zero (rowf a x) l r) u d).
    replace ((A + (X + Y)) + B)%g with ((A + (B + X)) + Y)%g; [apply ab_cancel|].
    rewrite <- !(ab_assoc _ _ _ _ G). f_equal. rewrite (ab_assoc _ _ _ _ G X Y B). apply G.
  Qed.

  Lemma cs2_sum_ok n m a c : row_eq n m a -> c2_n c = n -> c2_m c = m -> row_eq (n + 1) (m + 1) (c2_s c) ->
    (forall i j, 0 <= i <= n -> 0 <= j <= m -> rowf (c2_s c) i j = pre2 a i j) ->
    forall u d l r, 0 <= u -> 0 <= l ->
    cs2_sum zero add sub c u d l r = Ok (if (u <=? d) && (d <=? n) && (l <=? r) && (r <=? m) then rect_sum zero add a u d l r else zero).
  Proof.
    intros Ra En Em Rs Hs u d l r Hu Hl. unfold cs2_sum. rewrite En, Em.
    destruct ((u <=? d) && (d <=? n) && (l <=? r) && (r <=? m)) eqn:E; cbn [negb]; auto.
    rewrite !(get2_rowf (n + 1) (m + 1)) by (auto; lia). cbn [bind]. rewrite !Hs by lia. f_equal.
    rewrite (rect_prod n m) by (auto; lia). apply pre2_rect; lia.
  Qed.
End Proof.
