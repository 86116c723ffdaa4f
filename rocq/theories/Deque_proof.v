From Verif Require Import Base BaseLemmas ListZ Hist Seq Deque_model Deque_spec Deque_run.

Lemma list_eq_dec_nil {A} (v : list A) : {v = []} + {v <> []}.
Proof. destruct v; [left; auto|right; discriminate]. Qed.
(* stacks as running sums *)
Fixpoint scan {T S} (g : S -> T -> S) (s : S) (vs : list T) : list (T * S) :=
  match vs with [] => [] | v :: vs => (v, g s v) :: scan g (g s v) vs end.
Section Scan.
  Context {T S : Type} (g : S -> T -> S).
  Lemma scan_app vs : forall s ws, scan g s (vs ++ ws) = scan g s vs ++ scan g (fold_left g vs s) ws.
  Proof. induction vs; intros; cbn; auto. now rewrite IHvs. Qed.
  Lemma scan_snoc s vs v : scan g s (vs ++ [v]) = scan g s vs ++ [(v, g (fold_left g vs s) v)].
  Proof. rewrite scan_app. reflexivity. Qed.
  Lemma scan_fst vs : forall s, map fst (scan g s vs) = vs.
  Proof. induction vs; intros; cbn; congruence. Qed.
  Lemma scan_len s vs : zlen (scan g s vs) = zlen vs.
  Proof. rewrite <- (scan_fst vs s) at 2. now rewrite zlen_map. Qed.
  Lemma scan_get s vs i x : vget vs i = Ok x -> exists y, vget (scan g s vs) i = Ok (x, y).
  Proof.
    intro H. destruct (vget_Ok (scan g s vs) i) as ((x', y) & E).
    - rewrite scan_len. exact (vget_range _ _ _ H).
    - pose proof (vget_map_Ok fst _ _ _ E) as F. rewrite scan_fst in F. cbn in F. exists y. rewrite E. congruence.
  Qed.
  Lemma scan_prod s vs : st_prod s (scan g s vs) = Ok (fold_left g vs s).
  Proof.
    unfold st_prod. rewrite scan_len. destruct (list_eq_dec_nil vs) as [->|H]; auto.
    destruct (exists_last H) as (v' & x & ->). rewrite zlen_app, zlen_one. pose proof (zlen_nonneg v').
    destruct (Z.eqb_spec (zlen v' + 1) 0) as [E|E]; [lia|].
    rewrite scan_snoc, fold_left_app. rewrite vget_mid; [reflexivity|]. rewrite scan_len. zl. lia.
  Qed.
  Lemma scan_removelast s vs : removelast (scan g s vs) = scan g s (removelast vs).
  Proof.
    destruct (list_eq_dec_nil vs) as [->|H]; auto. destruct (exists_last H) as (v' & x & ->).
    rewrite scan_snoc, !removelast_last. reflexivity.
  Qed.
  Lemma recompute s (st : list (T * S)) (body : Z -> list (T * S) -> res (list (T * S))) h :
    (forall p, vget st 0 = Ok p -> h p = g s (fst p)) ->
    (forall i st p q, vget st i = Ok p -> vget st (i - 1) = Ok q -> body i st = vset st i (fst p, g (snd q) (fst p))) ->
    0 < zlen st ->
    (let* p := vget st 0 in let* st := vset st 0 (fst p, h p) in for_ 1 (zlen st) body st) = Ok (scan g s (map fst st)).
  Proof.
    intros Hh Hb H. destruct st as [|p0 st]; [zl; lia|]. rewrite zlen_cons in *. change (vget (p0 :: st) 0) with (Ok p0).
    cbn [bind]. specialize (Hh p0 eq_refl). change (p0 :: st) with ([] ++ p0 :: st). rewrite vset_mid by reflexivity. cbn [app bind].
    rewrite zlen_cons. rewrite Hh. pose proof (zlen_nonneg st) as L.
    destruct (for_inv (fun i st' => exists a b, p0 :: st = a ++ b /\ zlen a = i /\ st' = scan g s (map fst a) ++ b)
      1 (zlen st + 1) body ((fst p0, g s (fst p0)) :: st)) as (s' & E & a & b & E1 & E2 & E3).
    - lia.
    - exists [p0], st. auto.
    - intros i st' Hi (a & b & E1 & E2 & E3). destruct b as [|p b].
      + exfalso. rewrite app_nil_r in E1. subst a. rewrite zlen_cons in E2. lia.
      + destruct (list_eq_dec_nil a) as [->|Ha]; [zl; lia|]. destruct (exists_last Ha) as (a' & q & ->).
        rewrite map_app in *. cbn [map] in *. rewrite scan_snoc in E3. rewrite zlen_app in E2. zl.
        rewrite (Hb i st' p (fst q, g (fold_left g (map fst a') s) (fst q))).
        * rewrite E3. rewrite <- app_assoc. eexists. rewrite app_assoc. rewrite vset_mid.
          2:{ rewrite zlen_app, scan_len, zlen_map. zl. lia. }
          split; [reflexivity|]. exists ((a' ++ [q]) ++ [p]), b. split; [now rewrite <- app_assoc|].
          split; [rewrite !zlen_app; zl; lia|]. rewrite !map_app, !scan_app. cbn. rewrite fold_left_app. cbn.
          now rewrite <- !app_assoc.
        * rewrite E3. apply vget_mid. rewrite zlen_app, scan_len, zlen_map. zl. lia.
        * rewrite E3, <- app_assoc. apply vget_mid. rewrite scan_len, zlen_map. lia.
    - assert (zlen b = 0).
      { assert (zlen (p0 :: st) = zlen (a ++ b)) by now rewrite E1. rewrite zlen_cons, zlen_app in H0. lia. }
      apply zlen_0_nil in H0. subst b. rewrite app_nil_r in *. rewrite E, E3. now subst a.
  Qed.
End Scan.

Lemma walk_res n ms : forall p, (exists q, walk n p ms = Ok q) \/ walk n p ms = UB.
Proof. induction ms; cbn; intros; eauto. destruct (_ && _); eauto. Qed.

Section Views.
  Context {T S : Type} (gl gr : S -> T -> S) (sl sr : S).
  Variables (L R : list T).
  Let l := scan gl sl L.
  Let r := scan gr sr R.
  Let a := rev L ++ R.
  Lemma view_at i x : vget a i = Ok x -> st_at l r i = Ok x.
  Proof.
    intro H. pose proof (vget_range _ _ _ H) as Hr. unfold st_at. subst l r a. rewrite scan_len.
    destruct (Z.ltb_spec (i - zlen L) 0).
    - rewrite vget_app1 in H by (rewrite zlen_rev; lia). rewrite vget_rev in H by lia.
      replace (- (i - zlen L) - 1) with (zlen L - 1 - i) by lia. destruct (scan_get gl sl _ _ _ H) as (y & ->). reflexivity.
    - rewrite vget_app2 in H by (rewrite zlen_rev; lia). rewrite zlen_rev in H.
      destruct (scan_get gr sr _ _ _ H) as (y & ->). reflexivity.
  Qed.
  Lemma view_front x : vget a 0 = Ok x -> st_front l r = Ok x.
  Proof.
    intro H. unfold st_front. subst l r a. rewrite scan_len. destruct (Z.eqb_spec (zlen L) 0) as [E|E]; cbn [negb].
    - apply zlen_0_nil in E. subst L. cbn in H. destruct (scan_get gr sr _ _ _ H) as (y & ->). reflexivity.
    - pose proof (zlen_nonneg L). rewrite vget_app1 in H by (rewrite zlen_rev; lia). rewrite vget_rev in H by lia.
      rewrite Z.sub_0_r in H. destruct (scan_get gl sl _ _ _ H) as (y & ->). reflexivity.
  Qed.
  Lemma view_back x : vget a (zlen a - 1) = Ok x -> st_back l r = Ok x.
  Proof.
    intro H. unfold st_back. subst l r a. rewrite scan_len. rewrite zlen_app, zlen_rev in H. destruct (Z.eqb_spec (zlen R) 0) as [E|E]; cbn [negb].
    - apply zlen_0_nil in E. subst R. rewrite app_nil_r in H. pose proof (vget_range _ _ _ H) as Hr. rewrite zlen_rev in Hr. zl.
      rewrite vget_rev in H by lia. replace (zlen L - 1 - (zlen L + 0 - 1)) with 0 in H by lia.
      destruct (scan_get gl sl _ _ _ H) as (y & ->). reflexivity.
    - pose proof (zlen_nonneg R). rewrite vget_app2 in H by (rewrite zlen_rev; lia). rewrite zlen_rev in H.
      replace (zlen L + zlen R - 1 - zlen L) with (zlen R - 1) in H by lia. destruct (scan_get gr sr _ _ _ H) as (y & ->). reflexivity.
  Qed.
  (* iterators *)
  Let nl := zlen l. Let nr := zlen r.
  Definition at_pos (p : Z) (x : dqit) : Prop :=
    0 <= it_l x <= nl /\ 0 <= it_r x <= nr /\ p = it_l x + it_r x /\ (it_r x = 0 \/ it_l x = nl).
  Lemma at_begin : at_pos 0 it_begin.
  Proof. pose proof (zlen_nonneg l). pose proof (zlen_nonneg r). unfold at_pos, it_begin; cbn; subst nl nr; lia. Qed.
  Lemma at_sub p x d : 0 <= d -> at_pos p x -> 0 <= p - d -> at_pos (p - d) (it_sub_ x d).
  Proof.
    unfold at_pos, it_sub_. intros Hd (A & B & C & D) H. destruct (Z.ltb_spec (it_r x) d); cbn; lia.
  Qed.
  Lemma at_add p x d : 0 <= d -> at_pos p x -> p + d <= nl + nr -> at_pos (p + d) (it_add_ nl x d).
  Proof.
    unfold at_pos, it_add_. intros Hd (A & B & C & D) H. destruct (Z.ltb_spec (nl - it_l x) d); cbn; lia.
  Qed.
  Lemma at_move p x m : at_pos p x -> 0 <= p + delta m <= nl + nr -> at_pos (p + delta m) (it_move nl x m).
  Proof.
    intros A H. destruct m as [| |d|d]; cbn [it_move delta] in *.
    - unfold at_pos, it_inc in *. destruct (Z.eqb_spec (it_l x) nl); cbn; lia.
    - unfold at_pos, it_dec in *. destruct (Z.eqb_spec (it_r x) 0); cbn; lia.
    - unfold it_add. destruct (Z.ltb_spec d 0).
      + replace (p + d) with (p - - d) by lia. apply at_sub; auto; lia.
      + apply at_add; auto; lia.
    - unfold it_sub. destruct (Z.ltb_spec d 0).
      + apply at_add; auto; lia.
      + replace (p + - d) with (p - d) in * by lia. apply at_sub; auto; lia.
  Qed.
  Lemma at_moves ms : forall p x q, at_pos p x -> walk (nl + nr) p ms = Ok q -> at_pos q (fold_left (it_move nl) ms x).
  Proof.
    induction ms as [|m ms IH]; intros p x q A W; cbn in *.
    - congruence.
    - destruct ((0 <=? p + delta m) && (p + delta m <=? nl + nr)) eqn:E; [|discriminate].
      eapply IH; eauto. apply at_move; auto. lia.
  Qed.
  Lemma view_iter {Q} ms (o : dqout T Q) :
    (let* p := walk (zlen a) 0 ms in
     if p =? zlen a then Ok (DqPos p None) else let* x := vget a p in Ok (DqPos p (Some x))) = Ok o ->
    it_obs l r ms = Ok o.
  Proof.
    intro H. assert (La : zlen a = nl + nr) by (subst a nl nr l r; now rewrite zlen_app, zlen_rev, !scan_len).
    rewrite La in H. destruct (walk (nl + nr) 0 ms) as [p| | |] eqn:W; try discriminate. cbn [bind] in H.
    pose proof (at_moves ms _ _ _ at_begin W) as A. unfold it_obs. cbv zeta. fold nl nr.
    set (x := fold_left (it_move nl) ms it_begin) in *.
    assert (D : it_diff nl x it_begin = p).
    { unfold at_pos in A. unfold it_diff, it_begin. cbn [it_l it_r]. destruct (Z.eqb_spec (it_l x) nl); destruct (Z.eqb_spec 0 nl); lia. }
    rewrite D. unfold it_eq, it_end. cbn [it_l it_r]. destruct A as (A1 & A2 & A3 & A4).
    destruct (Z.eqb_spec p (nl + nr)) as [E|E].
    - destruct (Z.eqb_spec (it_l x) nl); destruct (Z.eqb_spec (it_r x) nr); cbn; auto; exfalso; lia.
    - destruct (vget a p) as [v| | |] eqn:V; try discriminate. cbn [bind] in H.
      assert (it_deref l r x = Ok v).
      { unfold it_deref. fold nl. subst a. destruct (Z.eqb_spec (it_l x) nl).
        - rewrite vget_app2 in V by (rewrite zlen_rev; subst nl l; rewrite scan_len in *; lia).
          rewrite zlen_rev in V. replace (p - zlen L) with (it_r x) in V by (subst nl l; rewrite scan_len in *; lia).
          destruct (scan_get gr sr _ _ _ V) as (y & Y). subst r. rewrite Y. reflexivity.
        - assert (nl = zlen L) by (subst nl l; now rewrite scan_len).
          rewrite vget_app1 in V by (rewrite zlen_rev; lia). rewrite vget_rev in V by lia.
          rewrite H0. replace (it_l x) with p by lia.
          destruct (scan_get gl sl _ _ _ V) as (y & Y). subst l. rewrite Y. reflexivity. }
      rewrite H0. cbn [bind].
      destruct (Z.eqb_spec (it_l x) nl); destruct (Z.eqb_spec (it_r x) nr); cbn; auto; exfalso; lia.
  Qed.
  Lemma view_len : zlen l + zlen r = zlen a.
  Proof. subst l r a. now rewrite zlen_app, zlen_rev, !scan_len. Qed.
End Views.

(* moving all but the first of the first [n] elements, last one first *)
Lemma move_loop {T U S} (st : list (T * U)) (P : list T -> S -> Prop) (body : Z -> S -> res S) n s :
  1 <= n <= zlen st -> P [] s ->
  (forall i p done s, vget st i = Ok p -> P done s -> exists s', body i s = Ok s' /\ P (done ++ [fst p]) s') ->
  exists s', ford_ (n - 1) 0 body s = Ok s' /\ P (rev (skipn 1 (firstn (Z.to_nat n) (map fst st)))) s'.
Proof.
  intros Hn H0 H.
  destruct (ford_inv (fun j s => P (rev (skipn (Z.to_nat (j + 1)) (firstn (Z.to_nat n) (map fst st)))) s) (n - 1) 0 body s) as (s' & E & F).
  - lia.
  - rewrite skipn_all2; auto. rewrite firstn_length. lia.
  - intros i s1 Hi Hp. destruct (vget_Ok st i) as (p & Ep); [lia|].
    destruct (H i p _ s1 Ep Hp) as (s2 & E2 & P2). exists s2. split; auto.
    replace (i - 1 + 1) with i by lia.
    replace (skipn (Z.to_nat i) (firstn (Z.to_nat n) (map fst st))) with
      (fst p :: skipn (Z.to_nat (i + 1)) (firstn (Z.to_nat n) (map fst st))).
    + cbn [rev]. exact P2.
    + pose proof (vget_map_Ok fst _ _ _ Ep) as G. rewrite <- (vget_firstn _ n) in G by lia.
      destruct (vget_split _ _ _ G) as (a & b & Eq & La). rewrite Eq.
      replace (Z.to_nat (i + 1)) with (length (a ++ [fst p])) by (rewrite app_length; cbn; unfold zlen in La; lia).
      replace (Z.to_nat i) with (length a) by (unfold zlen in La; lia).
      rewrite (skipn_app (length a) a), skipn_all, Nat.sub_diag. cbn [app skipn]. f_equal.
      change (fst p :: b) with ([fst p] ++ b). rewrite app_assoc. rewrite skipn_app, skipn_all, Nat.sub_diag. reflexivity.
  - exists s'. split; auto.
Qed.
Lemma skip_first_part {A} (v : list A) n : 1 <= n <= zlen v ->
  skipn 1 (firstn (Z.to_nat n) v) ++ skipn (Z.to_nat n) v = tl v.
Proof.
  intros H. destruct v as [|x v]; [zl; lia|]. destruct (Z.to_nat n) as [|k] eqn:E; [lia|].
  cbn. apply firstn_skipn.
Qed.

Section DequeProof.
  Context {T : Type} (op : T -> T -> T) (e : T).
  Hypothesis M : is_monoid op e.
  Definition total (a : list T) : T := fold_right op e a.
  Let gr (s v : T) := op s v.
  Let gl (s v : T) := op v s.
  Definition dq_inv (d : deque T) (a : list T) : Prop :=
    exists L R, d = mkDq (scan gl e L) (scan gr e R) /\ a = rev L ++ R.
  Lemma total_l L : forall s, fold_left gl L s = fold_right op s (rev L).
  Proof. induction L; intros; cbn; auto. rewrite IHL, fold_right_app. reflexivity. Qed.
  Lemma total_r R : forall s, fold_left gr R s = op s (total R).
  Proof.
    induction R; intros; cbn.
    - symmetry. apply (mon_r _ _ M).
    - rewrite IHR. unfold gr. symmetry. apply (mon_assoc _ _ M).
  Qed.
  Lemma total_op a : forall s, fold_right op s a = op (total a) s.
  Proof.
    induction a; intros; cbn.
    - symmetry. apply (mon_l _ _ M).
    - rewrite IHa. apply (mon_assoc _ _ M).
  Qed.
  Lemma dq_sim d a o : dq_inv d a ->
    match dqspec total a o with
    | Ok (r, a') => exists d', dqstep op e d o = Ok (r, d') /\ dq_inv d' a'
    | Abort => dqstep op e d o = Abort
    | OutOfFuel => False
    | UB => True
    end.
  Proof.
    intros (L & R & -> & ->). destruct o as [v|v| | | | |i| | | |ms]; cbn [dqspec dqstep].
    - unfold dq_push_back. cbn [dq_l dq_r]. rewrite scan_prod. cbn [bind]. eexists; split; [reflexivity|].
      exists L, (R ++ [v]). rewrite scan_snoc, app_assoc. auto.
    - unfold dq_push_front. cbn [dq_l dq_r]. rewrite scan_prod. cbn [bind]. eexists; split; [reflexivity|].
      exists (L ++ [v]), R. rewrite scan_snoc, rev_app_distr. auto.
    - unfold dq_pop_back. cbn [dq_l dq_r]. rewrite scan_len. destruct (Z.eqb_spec (zlen R) 0) as [E|E]; cbn [negb].
      + apply zlen_0_nil in E. subst R. rewrite app_nil_r. destruct (list_eq_dec_nil L) as [->|HL]; [reflexivity|].
        assert (Lp : 0 < zlen L) by (destruct L; [congruence|rewrite zlen_cons; pose proof (zlen_nonneg L); lia]).
        rewrite scan_len. set (l := zlen L / 2). set (r := zlen L - l).
        assert (Hr : 1 <= r <= zlen L /\ 0 <= l) by (subst r l; pose proof (Z.div_mod (zlen L) 2); pose proof (Z.mod_pos_bound (zlen L) 2); lia).
        destruct (Z.eqb_spec r 0); [lia|]. cbn [negb assert_ bind].
        destruct (move_loop (scan gl e L) (fun done d => d = mkDq (scan gl e L) (scan gr e done))
          (fun i d => let* p := vget (dq_l d) i in dq_push_back op e d (fst p)) r (mkDq (scan gl e L) (scan gr e []))) as (d & Ed & Pd).
        { rewrite scan_len. lia. } { reflexivity. }
        { intros i p done s Ep ->. cbn [dq_l]. rewrite Ep. cbn [bind]. unfold dq_push_back. cbn [dq_l dq_r]. rewrite scan_prod.
          eexists; split; [reflexivity|]. now rewrite scan_snoc. }
        cbn [scan] in *. rewrite Ed. cbn [bind]. rewrite Pd. cbn [dq_l dq_r]. rewrite scan_fst.
        assert (Ct : rev (skipn (Z.to_nat r) L) ++ rev (skipn 1 (firstn (Z.to_nat r) L)) = removelast (rev L)).
        { rewrite <- rev_app_distr, skip_first_part by lia. destruct L as [|x L]; [congruence|]. cbn. now rewrite removelast_last. }
        assert (Hne : exists q, match rev L with [] => Abort | _ :: _ => Ok (@DqUnit T T, removelast (rev L)) end = q /\ q = Ok (DqUnit, removelast (rev L))).
        { destruct (rev L) eqn:F; [|eauto]. apply (f_equal (@rev T)) in F. rewrite rev_involutive in F. cbn in F. congruence. }
        destruct Hne as (q & -> & ->). destruct (Z.eqb_spec l 0) as [E0|E0].
        * eexists; split; [reflexivity|]. exists [], (rev (skipn 1 (firstn (Z.to_nat r) L))). split.
          -- f_equal. apply zlen_0_nil. rewrite zlen_skipn; rewrite scan_len; lia.
          -- rewrite <- Ct. rewrite (skipn_all2 L); [reflexivity|]. unfold zlen in *. lia.
        * set (st := skipn (Z.to_nat r) (scan gl e L)).
          assert (Ls : zlen st = l) by (subst st; rewrite zlen_skipn; rewrite scan_len; lia).
          pose proof (recompute gl e st (fun i st => let* p := vget st i in let* q := vget st (i - 1) in vset st i (fst p, op (fst p) (snd q))) fst) as RC.
          assert (Em : map fst st = skipn (Z.to_nat r) L) by (subst st; rewrite <- skipn_map; now rewrite scan_fst).
          rewrite Em in RC. destruct (vget_Ok st 0) as (p0 & E1); [lia|]. rewrite E1 in *. cbn [bind] in *.
          rewrite vset_ok in * by lia. cbn [bind] in *. rewrite zlen_zupd, Ls in RC. rewrite RC.
          -- cbn [bind]. eexists; split; [reflexivity|]. eexists _, _; split; [reflexivity|]. auto.
          -- intros p Hp. unfold gl. symmetry. apply (mon_r _ _ M).
          -- intros i st' p q Hp Hq. rewrite Hp. cbn [bind]. rewrite Hq. reflexivity.
          -- lia.
      + destruct (list_eq_dec_nil R) as [->|HR]; [exfalso; now apply E|]. destruct (exists_last HR) as (R' & x & ->).
        rewrite app_assoc. destruct ((rev L ++ R') ++ [x]) eqn:F; [now destruct (rev L ++ R')|]. rewrite <- F. clear F.
        eexists; split; [reflexivity|]. exists L, R'. rewrite scan_removelast, !removelast_last. auto.
    - unfold dq_pop_front. cbn [dq_l dq_r]. rewrite scan_len. destruct (Z.eqb_spec (zlen L) 0) as [E|E]; cbn [negb].
      + apply zlen_0_nil in E. subst L. cbn [rev app scan]. destruct R as [|x0 R0]; [reflexivity|]. set (R := x0 :: R0) in *.
        assert (Lp : 0 < zlen R) by (subst R; rewrite zlen_cons; pose proof (zlen_nonneg R0); lia).
        rewrite scan_len. set (r := zlen R / 2). set (l := zlen R - r).
        assert (Hr : 1 <= l <= zlen R /\ 0 <= r) by (subst r l; pose proof (Z.div_mod (zlen R) 2); pose proof (Z.mod_pos_bound (zlen R) 2); lia).
        destruct (Z.eqb_spec l 0); [lia|]. cbn [negb assert_ bind].
        destruct (move_loop (scan gr e R) (fun done d => d = mkDq (scan gl e done) (scan gr e R))
          (fun i d => let* p := vget (dq_r d) i in dq_push_front op e d (fst p)) l (mkDq (scan gl e []) (scan gr e R))) as (d & Ed & Pd).
        { rewrite scan_len. lia. } { reflexivity. }
        { intros i p done s Ep ->. cbn [dq_r]. rewrite Ep. cbn [bind]. unfold dq_push_front. cbn [dq_l dq_r]. rewrite scan_prod.
          eexists; split; [reflexivity|]. now rewrite scan_snoc. }
        change (@scan T T gl e []) with (@nil (T * T)) in *. rewrite Ed. cbn [bind]. rewrite Pd. cbn [dq_l dq_r]. rewrite scan_fst.
        assert (Ct : rev (rev (skipn 1 (firstn (Z.to_nat l) R))) ++ skipn (Z.to_nat l) R = R0).
        { rewrite rev_involutive, skip_first_part by lia. reflexivity. }
        destruct (Z.eqb_spec r 0) as [E0|E0].
        * eexists; split; [reflexivity|]. exists (rev (skipn 1 (firstn (Z.to_nat l) R))), []. split.
          -- f_equal. apply zlen_0_nil. rewrite zlen_skipn; rewrite scan_len; lia.
          -- rewrite <- Ct at 1. f_equal. apply skipn_all2. unfold zlen in *. lia.
        * set (st := skipn (Z.to_nat l) (scan gr e R)).
          assert (Ls : zlen st = r) by (subst st; rewrite zlen_skipn; rewrite scan_len; lia).
          pose proof (recompute gr e st (fun i st => let* q := vget st (i - 1) in let* p := vget st i in vset st i (fst p, op (snd q) (fst p))) fst) as RC.
          assert (Em : map fst st = skipn (Z.to_nat l) R) by (subst st; rewrite <- skipn_map; now rewrite scan_fst).
          rewrite Em in RC. destruct (vget_Ok st 0) as (p0 & E1); [lia|]. rewrite E1 in *. cbn [bind] in *.
          rewrite vset_ok in * by lia. cbn [bind] in *. rewrite zlen_zupd, Ls in RC. rewrite RC.
          -- cbn [bind]. eexists; split; [reflexivity|]. eexists _, _; split; [reflexivity|]. auto.
          -- intros p Hp. unfold gr. symmetry. apply (mon_l _ _ M).
          -- intros i st' p q Hp Hq. rewrite Hq. cbn [bind]. rewrite Hp. reflexivity.
          -- lia.
      + destruct (list_eq_dec_nil L) as [->|HL]; [exfalso; now apply E|]. destruct (exists_last HL) as (L' & x & ->).
        rewrite rev_app_distr. cbn [rev app]. eexists; split; [reflexivity|]. exists L', R. rewrite scan_removelast, !removelast_last. auto.
    - destruct (vget (rev L ++ R) 0) eqn:V; cbn; auto; try (unfold vget in V; destruct (nth_error _ _); discriminate).
      rewrite (view_front gl gr e e _ _ _ V). cbn. eexists; split; [reflexivity|]. eexists _, _; eauto.
    - destruct (vget (rev L ++ R) _) eqn:V; cbn; auto; try (unfold vget in V; destruct (_ <? _); [|destruct (nth_error _ _)]; discriminate).
      rewrite (view_back gl gr e e _ _ _ V). cbn. eexists; split; [reflexivity|]. eexists _, _; eauto.
    - destruct (vget (rev L ++ R) _) eqn:V; cbn; auto; try (unfold vget in V; destruct (_ <? _); [|destruct (nth_error _ _)]; discriminate).
      rewrite (view_at gl gr e e _ _ _ _ V). cbn. eexists; split; [reflexivity|]. eexists _, _; eauto.
    - unfold dq_size. cbn [dq_l dq_r]. rewrite view_len. eexists; split; [reflexivity|]. eexists _, _; eauto.
    - unfold dq_prod. cbn [dq_l dq_r]. rewrite !scan_prod. cbn [bind]. rewrite total_l, total_r.
      eexists; split; [|eexists _, _; eauto]. do 3 f_equal. unfold total at 2. rewrite fold_right_app.
      rewrite (mon_l _ _ M). fold (total (rev L)). symmetry. apply total_op.
    - eexists; split; [reflexivity|]. exists [], []. auto.
    - pose proof (view_iter (Q := T) gl gr e e L R ms) as VI.
      destruct (walk (zlen (rev L ++ R)) 0 ms) as [p| | |] eqn:W; cbn [bind] in *; auto.
      + destruct (Z.eqb_spec p (zlen (rev L ++ R))).
        * cbn [dq_l dq_r]. rewrite (VI _ eq_refl). cbn. eexists; split; [reflexivity|]. eexists _, _; eauto.
        * destruct (vget (rev L ++ R) _) eqn:V; cbn [bind] in *; auto; try (unfold vget in V; destruct (_ <? _); [|destruct (nth_error _ _)]; discriminate).
          cbn [dq_l dq_r]. rewrite (VI _ eq_refl). cbn. eexists; split; [reflexivity|]. eexists _, _; eauto.
      + destruct (walk_res (zlen (rev L ++ R)) ms 0) as [(? & F)|F]; rewrite F in W; discriminate.
      + destruct (walk_res (zlen (rev L ++ R)) ms 0) as [(? & F)|F]; rewrite F in W; discriminate.
  Qed.
  Lemma dq_of_ok c : exists d, dq_of op e c = Ok d /\ dq_inv d c.
  Proof.
    unfold dq_of. apply (for_each_inv (fun done d => dq_inv d done)).
    - exists [], []. auto.
    - intros done x todo s _ (L & R & -> & ->). unfold dq_push_back. cbn [dq_l dq_r]. rewrite scan_prod. cbn.
      eexists; split; [reflexivity|]. exists L, (R ++ [x]). rewrite scan_snoc, app_assoc. auto.
  Qed.
  Theorem deque_history_ok c ops :
    snd (run (dqspec total) c ops) <> UB ->
    exists d, dq_of op e c = Ok d /\ run (dqstep op e) d ops = run (dqspec total) c ops.
  Proof.
    intro H. destruct (dq_of_ok c) as (d & E & Hi). exists d. split; auto.
    eapply run_sim with (Inv := dq_inv); eauto. intros; now apply dq_sim.
  Qed.
End DequeProof.

Section QueueProof.
  Context {T S Q : Type} (e : S) (append : S -> T -> S) (merge : S -> S -> Q) (tot : list T -> Q).
  Hypothesis A : aggregates e append merge tot.
  Definition qu_inv (d : queue T S) (a : list T) : Prop :=
    exists L R, d = mkQu (scan append e L) (scan append e R) /\ a = rev L ++ R.
  Lemma qu_sim d a o : qu_inv d a -> queue_op o ->
    match dqspec tot a o with
    | Ok (r, a') => exists d', qustep e append merge d o = Ok (r, d') /\ qu_inv d' a'
    | Abort => qustep e append merge d o = Abort
    | OutOfFuel => False
    | UB => True
    end.
  Proof.
    intros (L & R & -> & ->) Ho. destruct o as [v|v| | | | |i| | | |ms]; cbn [dqspec qustep queue_op] in *; try tauto.
    - unfold qu_push_back. cbn [qu_l qu_r]. rewrite scan_prod. cbn [bind]. eexists; split; [reflexivity|].
      exists L, (R ++ [v]). rewrite scan_snoc, app_assoc. auto.
    - unfold qu_pop_front. cbn [qu_l qu_r]. rewrite scan_len. destruct (Z.eqb_spec (zlen L) 0) as [E|E]; cbn [negb].
      + apply zlen_0_nil in E. subst L. cbn [rev app scan]. destruct R as [|x0 R0]; [reflexivity|]. set (R := x0 :: R0) in *.
        assert (Lp : 0 < zlen R) by (subst R; rewrite zlen_cons; pose proof (zlen_nonneg R0); lia).
        rewrite scan_len. destruct (Z.eqb_spec (zlen R) 0); [lia|]. cbn [negb assert_ bind].
        destruct (move_loop (scan append e R) (fun done l => l = scan append e done)
          (fun i l => let* p := vget (scan append e R) i in let* x := st_prod e l in Ok (l ++ [(fst p, append x (fst p))]))
          (zlen R) (scan append e [])) as (d & Ed & Pd).
        { rewrite scan_len. lia. } { reflexivity. }
        { intros i p done s Ep ->. rewrite Ep. cbn [bind]. rewrite scan_prod. eexists; split; [reflexivity|]. now rewrite scan_snoc. }
        change (@scan T S append e []) with (@nil (T * S)) in *. rewrite Ed. cbn [bind]. rewrite Pd, scan_fst.
        eexists; split; [reflexivity|]. eexists _, []. split; [reflexivity|]. rewrite rev_involutive, app_nil_r.
        rewrite firstn_all2 by (unfold zlen; lia). reflexivity.
      + destruct (list_eq_dec_nil L) as [->|HL]; [exfalso; now apply E|]. destruct (exists_last HL) as (L' & x & ->).
        rewrite rev_app_distr. cbn [rev app]. eexists; split; [reflexivity|]. exists L', R. rewrite scan_removelast, !removelast_last. auto.
    - destruct (vget (rev L ++ R) 0) eqn:V; cbn; auto; try (unfold vget in V; destruct (nth_error _ _); discriminate).
      rewrite (view_front append append e e _ _ _ V). cbn. eexists; split; [reflexivity|]. eexists _, _; eauto.
    - destruct (vget (rev L ++ R) _) eqn:V; cbn; auto; try (unfold vget in V; destruct (_ <? _); [|destruct (nth_error _ _)]; discriminate).
      rewrite (view_back append append e e _ _ _ V). cbn. eexists; split; [reflexivity|]. eexists _, _; eauto.
    - destruct (vget (rev L ++ R) _) eqn:V; cbn; auto; try (unfold vget in V; destruct (_ <? _); [|destruct (nth_error _ _)]; discriminate).
      rewrite (view_at append append e e _ _ _ _ V). cbn. eexists; split; [reflexivity|]. eexists _, _; eauto.
    - unfold qu_size. cbn [qu_l qu_r]. rewrite view_len. eexists; split; [reflexivity|]. eexists _, _; eauto.
    - unfold qu_prod. cbn [qu_l qu_r]. rewrite !scan_prod. cbn [bind]. rewrite <- A, rev_involutive.
      eexists; split; [reflexivity|]. eexists _, _; eauto.
    - eexists; split; [reflexivity|]. exists [], []. auto.
    - pose proof (view_iter (Q := Q) append append e e L R ms) as VI.
      destruct (walk (zlen (rev L ++ R)) 0 ms) as [p| | |] eqn:W; cbn [bind] in *; auto.
      + destruct (Z.eqb_spec p (zlen (rev L ++ R))).
        * cbn [qu_l qu_r]. rewrite (VI _ eq_refl). cbn. eexists; split; [reflexivity|]. eexists _, _; eauto.
        * destruct (vget (rev L ++ R) _) eqn:V; cbn [bind] in *; auto; try (unfold vget in V; destruct (_ <? _); [|destruct (nth_error _ _)]; discriminate).
          cbn [qu_l qu_r]. rewrite (VI _ eq_refl). cbn. eexists; split; [reflexivity|]. eexists _, _; eauto.
      + destruct (walk_res (zlen (rev L ++ R)) ms 0) as [(? & F)|F]; rewrite F in W; discriminate.
      + destruct (walk_res (zlen (rev L ++ R)) ms 0) as [(? & F)|F]; rewrite F in W; discriminate.
  Qed.
  Lemma qu_of_ok c : exists d, qu_of e append c = Ok d /\ qu_inv d c.
  Proof.
    unfold qu_of. apply (for_each_inv (fun done d => qu_inv d done)).
    - exists [], []. auto.
    - intros done x todo s _ (L & R & -> & ->). unfold qu_push_back. cbn [qu_l qu_r]. rewrite scan_prod. cbn.
      eexists; split; [reflexivity|]. exists L, (R ++ [x]). rewrite scan_snoc, app_assoc. auto.
  Qed.
  Lemma qu_run ops : Forall queue_op ops -> forall d a, qu_inv d a -> snd (run (dqspec tot) a ops) <> UB ->
    run (qustep e append merge) d ops = run (dqspec tot) a ops.
  Proof.
    induction 1 as [|o ops Ho _ IH]; intros d a Hi H; auto. cbn [run] in *.
    pose proof (qu_sim d a o Hi Ho) as Hs. destruct (dqspec tot a o) as [(r, a')| | |]; cbn in H; try congruence; try tauto.
    - destruct Hs as (s' & E & I'). rewrite E. destruct (run (dqspec tot) a' ops) as [rs f] eqn:Ea.
      rewrite (IH s' a' I'); rewrite Ea; auto.
    - now rewrite Hs.
  Qed.
  Theorem queue_history_ok c ops :
    Forall queue_op ops -> snd (run (dqspec tot) c ops) <> UB ->
    exists d, qu_of e append c = Ok d /\ run (qustep e append merge) d ops = run (dqspec tot) c ops.
  Proof.
    intros Ho H. destruct (qu_of_ok c) as (d & E & Hi). exists d. split; auto. now apply qu_run.
  Qed.
End QueueProof.

(* a commutative monoid, and more generally an action by commuting maps, aggregates *)
Lemma comm_aggregates {T} (op : T -> T -> T) e : is_monoid op e -> (forall x y, op x y = op y x) ->
  aggregates e op op (fold_right op e).
Proof.
  intros M C l r.
  assert (F : forall a s, fold_left op a s = op s (fold_right op e a)).
  { induction a; intros; cbn; [symmetry; apply (mon_r _ _ M)|]. rewrite IHa. symmetry. apply (mon_assoc _ _ M). }
  assert (G : forall a b, fold_right op e (a ++ b) = op (fold_right op e a) (fold_right op e b)).
  { induction a; intros; cbn; [symmetry; apply (mon_l _ _ M)|]. rewrite IHa. apply (mon_assoc _ _ M). }
  assert (Rv : forall a, fold_right op e (rev a) = fold_right op e a).
  { induction a; cbn; auto. rewrite G, IHa. cbn. rewrite (mon_r _ _ M). apply C. }
  rewrite !F, !(mon_l _ _ M), Rv, G. reflexivity.
Qed.
Lemma queue_order {T} (op : T -> T -> T) (e z x y : T) :
  is_monoid op e -> op x y <> op y x ->
  let ops := [DqPushBack z; DqPushBack x; DqPushBack y; DqPopFront; DqProd] in
  run (qustep e op op) qu_empty ops = ([DqUnit; DqUnit; DqUnit; DqUnit; DqSum (op y x)], Ok tt) /\
  run (dqspec (fold_right op e)) [] ops = ([DqUnit; DqUnit; DqUnit; DqUnit; DqSum (op x y)], Ok tt) /\
  run (qustep e op op) qu_empty ops <> run (dqspec (fold_right op e)) [] ops.
Proof.
  intros M N. cbv zeta.
  assert (E1 : run (qustep e op op) qu_empty [DqPushBack z; DqPushBack x; DqPushBack y; DqPopFront; DqProd] =
    ([DqUnit; DqUnit; DqUnit; DqUnit; DqSum (op y x)], Ok tt)).
  { transitivity ([@DqUnit T T; DqUnit; DqUnit; DqUnit; DqSum (op (op (op e y) x) e)], Ok tt).
    - reflexivity.
    - now rewrite (mon_r _ _ M), (mon_l _ _ M). }
  assert (E2 : run (dqspec (fold_right op e)) [] [DqPushBack z; DqPushBack x; DqPushBack y; DqPopFront; DqProd] =
    ([DqUnit; DqUnit; DqUnit; DqUnit; DqSum (op x y)], Ok tt)).
  { transitivity ([@DqUnit T T; DqUnit; DqUnit; DqUnit; DqSum (op x (op y e))], Ok tt).
    - reflexivity.
    - now rewrite (mon_r _ _ M). }
  rewrite E1, E2. repeat split; auto. congruence.
Qed.
