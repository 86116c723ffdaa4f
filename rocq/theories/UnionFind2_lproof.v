From Verif Require Import Base BaseLemmas Agg UnionFind_model UnionFind_spec UnionFind_run UnionFind_proof UnionFind_proof2.
From Verif Require Import UnionFind2_model UnionFind2_spec UnionFind2_run UnionFind2_proof UnionFind2_wproof.
From Coq Require Import Relations Permutation.

Lemma zupd_comm {A} (v : list A) i j a b : 0 <= i -> 0 <= j -> i <> j -> zupd (zupd v i a) j b = zupd (zupd v j b) i a.
Proof. intros. unfold zupd. apply upd_comm. lia. Qed.

Lemma LInv_ext n u link E u' E' : LInv n (mkLUF u link) E -> UOk n u' E' -> eequiv E E' -> LInv n (mkLUF u' link) E'.
Proof.
  intros [U L C] U' Q. constructor; auto. intros x Hx. destruct (C x Hx) as (l & W & N & I).
  exists l. split; auto. split; auto. intro v. rewrite I, (Q x v). tauto.
Qed.

Section L.
  Context {T F : Type}.
  Variables (add : T -> T -> T) (neg : T -> T).
  Variables (mapping : F -> T -> Z -> T) (comp : F -> F -> F) (idf : F) (inv : F -> F) (zero : T).
  Hypothesis LL : lazy_laws add neg mapping comp idf inv zero.

  Lemma map_vals_ok lz l : forall val, NoDup l -> (forall v, In v l -> 0 <= v < zlen val) ->
    exists val', ufl_map_vals mapping lz l val = Ok val' /\ zlen val' = zlen val /\
      (forall v t, In v l -> vget val v = Ok t -> vget val' v = Ok (mapping lz t 1)) /\
      (forall v, ~ In v l -> vget val' v = vget val v).
  Proof.
    unfold ufl_map_vals. induction l as [|x l IH]; intros val ND H; cbn [for_each].
    - exists val. split; auto. split; auto. split; [intros v t []|auto].
    - assert (Hx : 0 <= x < zlen val) by (apply H; simpl; auto).
      destruct (vget_Ok val x Hx) as (tx & Ex). rewrite Ex; cbn [bind]. rewrite vset_ok by auto; cbn [bind].
      inversion ND as [|? ? Nx ND']; subst.
      destruct (IH (zupd val x (mapping lz tx 1)) ND') as (val' & E' & L' & P & Q).
      { intros v I. rewrite zlen_zupd. apply H. simpl; auto. }
      rewrite zlen_zupd in L'. exists val'. split; auto. split; auto. split.
      + intros v t [<-|I] Ev.
        * rewrite Q by auto. rewrite vget_zupd_same by auto. rewrite Ex in Ev. injection Ev as <-. auto.
        * apply P; auto. rewrite vget_zupd_diff; auto; try lia. intros ->; tauto.
      + intros v N. simpl in N. rewrite Q by tauto. rewrite vget_zupd_diff; auto; try lia.
  Qed.

  Record VInv (n : Z) (s : ufl T F) (R : Z -> Z) (E : list (Z * Z)) (a : Z -> T) : Prop := {
    vi_n : uf_n (luf_uf (fl_luf s)) = n;
    vi_uf : UInv n (uf_dat (luf_uf (fl_luf s))) R E;
    vi_luf : LInv n (fl_luf s) E;
    vi_vlen : zlen (fl_val s) = n;
    vi_slen : zlen (fl_sum s) = n;
    vi_zlen : zlen (fl_laz s) = n;
    vi_val : forall x, 0 <= x < n -> exists v lz, vget (fl_val s) x = Ok v /\ vget (fl_laz s) (R x) = Ok lz /\ a x = mapping lz v 1;
    vi_sum : forall x, 0 <= x < n -> exists t, vget (fl_sum s) (R x) = Ok t /\ osum add (map a (cls R n (R x))) = Some t
  }.

  Lemma ufl_root_ok n s R E a x : VInv n s R E a -> 0 <= x < n ->
    exists s', ufl_root s x = Ok (R x, s') /\ VInv n s' R E a /\ fl_val s' = fl_val s /\ fl_sum s' = fl_sum s /\ fl_laz s' = fl_laz s.
  Proof.
    intros I Hx. unfold ufl_root.
    destruct (uf_root_ok _ _ _ _ _ (vi_n _ _ _ _ _ I) (vi_uf _ _ _ _ _ I) Hx) as (u & E1 & Hn & I1).
    rewrite E1; cbn [bind]. eexists; split; [reflexivity|]. split; [|auto].
    pose proof (vi_luf _ _ _ _ _ I) as J. destruct (fl_luf s) as [u0 link]. 
    destruct I; constructor; cbn; auto.
    eapply LInv_ext; eauto; [|intros ? ?; tauto]. split; eauto.
  Qed.

  Lemma ufl_init_ok vals a : (forall i, 0 <= i < zlen vals -> vget vals i = Ok (a i)) ->
    VInv (zlen vals) (ufl_init idf vals) (fun x => x) [] a.
  Proof.
    intros H. pose proof (zlen_nonneg vals). constructor; cbn; auto.
    - now apply UInv_init.
    - now apply luf_init_ok.
    - now apply zlen_vrep.
    - intros x Hx. exists (a x), idf. rewrite vget_vrep by auto. split; auto. split; auto.
      symmetry. apply LL.
    - intros x Hx. exists (a x). split; auto. rewrite cls_id by auto. reflexivity.
  Qed.

  Lemma osum_mapping f (a : Z -> T) l t : osum add (map a l) = Some t ->
    osum add (map (fun v => mapping f (a v) 1) l) = Some (mapping f t (zlen l)).
  Proof.
    revert t; induction l as [|x l IH]; intros t H; [discriminate|].
    rewrite zlen_cons. cbn [map] in *.
    change (oop add (Some (a x)) (osum add (map a l)) = Some t) in H.
    change (oop add (Some (mapping f (a x) 1)) (osum add (map (fun v => mapping f (a v) 1) l)) = Some (mapping f t (zlen l + 1))).
    destruct (osum add (map a l)) as [t'|] eqn:O.
    - rewrite (IH t' eq_refl). simpl in *. injection H as <-. f_equal.
      assert (0 < zlen l). { destruct l; [discriminate|]. rewrite zlen_cons. pose proof (zlen_nonneg l). lia. }
      rewrite (Z.add_comm (zlen l)). symmetry. apply LL; lia.
    - destruct l as [|y l]; [|destruct (osum_cons_Some add (ll_assoc _ _ _ _ _ _ _ LL) (map a l) (a y)) as (t' & E'); cbn [map] in O; congruence].
      simpl in *. injection H as <-. auto.
  Qed.

  Lemma osum_map_ext (a b : Z -> T) l : (forall v, In v l -> a v = b v) -> osum add (map a l) = osum add (map b l).
  Proof. intro H. f_equal. apply map_ext_in. auto. Qed.

  Lemma act_cancel f b : mapping f (mapping (inv f) b 1) 1 = b. Proof. apply LL. Qed.
  Lemma act_comp f g b k : mapping (comp f g) b k = mapping f (mapping g b k) k. Proof. apply LL. Qed.

  Lemma ufl_merge_ok n s R E a x y : VInv n s R E a -> 0 <= x < n -> 0 <= y < n ->
    exists b s' R', ufl_merge add mapping comp inv s x y = Ok (b, s') /\ VInv n s' R' ((x, y) :: E) a /\
      (b = true <-> ~ connected E x y).
  Proof.
    intros I Hx Hy. unfold ufl_merge.
    destruct (ufl_root_ok _ _ _ _ _ _ I Hx) as (s1 & E1 & I1 & _). rewrite E1; cbn [bind].
    destruct (ufl_root_ok _ _ _ _ _ _ I1 Hy) as (s2 & E2 & I2 & _). rewrite E2; cbn [bind]. clear s E1 s1 E2 I I1.
    rename s2 into s, I2 into I.
    pose proof (vi_uf _ _ _ _ _ I) as U. pose proof (vi_n _ _ _ _ _ I) as Hn.
    assert (Rng : forall a b, In (a, b) ((x, y) :: E) -> 0 <= a < n /\ 0 <= b < n).
    { intros a0 b0 [H|H]; [injection H as <- <-; auto|]. apply (ui_E _ _ _ _ U); auto. }
    pose proof (ui_conn _ _ _ _ U x y Hx Hy) as Cxy.
    destruct (R x =? R y) eqn:C.
    { exists false, s, R. split; auto. split; [|split; [discriminate|intros H; exfalso; apply H, Cxy; lia]].
      assert (EQ : eequiv E ((x, y) :: E)).
      { intros u v. symmetry. apply connected_ext_true. apply (ui_conn _ _ _ _ U); auto. lia. }
      pose proof (vi_luf _ _ _ _ _ I) as J. destruct I. constructor; auto.
      - eapply UInv_ext; eauto.
      - destruct (fl_luf s) as [u0 link]. eapply LInv_ext; eauto. split; auto. exists R. eapply UInv_ext; eauto. }
    destruct (UInv_R_range _ _ _ _ _ U Hx) as [Rx RRx].
    destruct (UInv_R_range _ _ _ _ _ U Hy) as [Ry RRy].
    assert (Cx : connected E x (R x)) by (apply (ui_conn _ _ _ _ U); auto).
    assert (Cy : connected E y (R y)) by (apply (ui_conn _ _ _ _ U); auto).
    assert (EQ := eequiv_rep E x y _ _ Cx Cy).
    destruct (luf_merge_ok _ _ _ _ _ (vi_luf _ _ _ _ _ I) Rx Ry) as (bl & sl & El & Jl & Hbl).
    destruct (uf_merge_ok _ _ _ _ _ _ Hn U Rx Ry) as (b & u3 & R' & E3 & Hn3 & I3 & Hb & Hf & Ht).
    unfold luf_merge in El. rewrite E3 in *; cbn [bind] in *. rewrite RRx, RRy in *.
    assert (b = true) by (apply Hb; lia). subst b. destruct (Ht eq_refl) as (p & c & Hpc & ->). clear Ht Hf Hb.
    destruct (uf_root_ok _ _ _ _ _ Hn3 I3 Rx) as (u4 & E4 & Hn4 & I4). cbv beta in E4. rewrite RRx in E4.
    assert (Er : (if R x =? c then p else R x) = p) by (destruct (R x =? c) eqn:?; lia).
    rewrite Er in E4. rewrite E4; cbn [bind].
    assert (Esw : (if p =? R y then (R y, R x) else (R x, R y)) = (p, c)).
    { destruct Hpc as [[-> ->]|[-> ->]]; [rewrite C|rewrite Z.eqb_refl]; auto. }
    rewrite Esw.
    assert (Hp : 0 <= p < n) by lia. assert (Hc : 0 <= c < n) by lia. assert (Npc : p <> c) by lia.
    assert (Rp : R p = p) by (destruct Hpc as [[-> ->]|[-> ->]]; auto).
    assert (Rc : R c = c) by (destruct Hpc as [[-> ->]|[-> ->]]; auto).
    pose proof (vi_zlen _ _ _ _ _ I) as Lz. pose proof (vi_vlen _ _ _ _ _ I) as Lv. pose proof (vi_slen _ _ _ _ _ I) as Ls.
    destruct (vget_Ok (fl_laz s) p) as (lp & Elp); [lia|]. destruct (vget_Ok (fl_laz s) c) as (lc & Elc); [lia|].
    rewrite Elp, Elc; cbn [bind].
    destruct (luf_component_ok _ _ _ _ (vi_luf _ _ _ _ _ I) Hc) as (cl & Ecl & NDcl & Icl).
    change (luf_component (mkLUF u4 (luf_link (fl_luf s))) c) with (luf_component (fl_luf s) c).
    rewrite Ecl; cbn [bind].
    destruct (map_vals_ok (comp (inv lp) lc) (c :: cl) (fl_val s) NDcl) as (val' & Ev & Lv' & V1 & V2).
    { intros v Iv. apply Icl in Iv. lia. }
    rewrite Ev; cbn [bind].
    destruct (vi_sum _ _ _ _ _ I p Hp) as (tp & Etp & Otp). destruct (vi_sum _ _ _ _ _ I c Hc) as (tc & Etc & Otc).
    rewrite Rp in Etp, Otp. rewrite Rc in Etc, Otc. rewrite Etp, Etc; cbn [bind].
    rewrite vset_ok by lia; cbn [bind].
    pose proof (li_len _ _ _ (vi_luf _ _ _ _ _ I)) as Lk.
    destruct (vget_Ok (luf_link (fl_luf s)) p) as (kp & Ekp); [lia|].
    destruct (vget_Ok (luf_link (fl_luf s)) c) as (kc & Ekc); [lia|].
    rewrite Ekp, Ekc; cbn [bind]. rewrite vset_ok by lia; cbn [bind].
    rewrite vset_ok by (rewrite zlen_zupd; lia); cbn [bind].
    eexists true, _, (fun z => if R z =? c then p else R z). split; [reflexivity|]. split; [|split; auto; intros _ H; apply Cxy in H; lia].
    assert (U4 : UInv n (uf_dat u4) (fun z => if R z =? c then p else R z) ((x, y) :: E)) by (eapply UInv_ext; eauto).
    constructor; cbn [fl_luf fl_val fl_sum fl_laz luf_uf]; rewrite ?zlen_zupd; auto; try lia.
    - assert (El' : LInv n (mkLUF u3 (zupd (zupd (luf_link (fl_luf s)) p kc) c kp)) ((R x, R y) :: E)).
      { destruct Hpc as [[-> ->]|[-> ->]].
        - rewrite Ekp, Ekc in El; cbn [bind] in El. rewrite vset_ok in El by lia; cbn [bind] in El.
          rewrite vset_ok in El by (rewrite zlen_zupd; lia); cbn [bind] in El. injection El as <- <-. auto.
        - rewrite Ekp, Ekc in El; cbn [bind] in El. rewrite vset_ok in El by lia; cbn [bind] in El.
          rewrite vset_ok in El by (rewrite zlen_zupd; lia); cbn [bind] in El. injection El as <- <-.
          rewrite zupd_comm by lia. auto. }
      eapply LInv_ext; eauto. split; eauto.
    - intros z Hz. destruct (vi_val _ _ _ _ _ I z Hz) as (v & lz & Evz & Elz & Ez).
      destruct (R z =? c) eqn:Cz.
      + assert (R z = c) by lia. exists (mapping (comp (inv lp) lc) v 1), lp. split; [|split; auto].
        * apply V1; auto. apply Icl. split; auto. apply (ui_conn _ _ _ _ U); auto. lia.
        * rewrite act_comp, act_cancel. rewrite Ez. rewrite H, Elc in Elz. injection Elz as <-. auto.
      + exists v, lz. split; [|auto]. rewrite V2; auto. intros Iz. apply Icl in Iz. destruct Iz as [_ Cn].
        apply (ui_conn _ _ _ _ U) in Cn; auto. lia.
    - intros z Hz. destruct (R z =? c) eqn:Cz.
      + exists (add tp tc). split; [apply vget_zupd_same; lia|].
        rewrite cls_merge_val by (auto; apply LL). rewrite Otp, Otc. reflexivity.
      + destruct (Z.eq_dec (R z) p) as [Ep|Np].
        * rewrite Ep. exists (add tp tc). split; [apply vget_zupd_same; lia|].
          rewrite cls_merge_val by (auto; apply LL). rewrite Otp, Otc. reflexivity.
        * destruct (vi_sum _ _ _ _ _ I z Hz) as (t & Et & Ot). exists t. rewrite vget_zupd_diff by lia. split; auto.
          rewrite cls_merge_other by lia. auto.
  Qed.

  Lemma ufl_get_component_ok n s R E a x : VInv n s R E a -> 0 <= x < n ->
    exists t s', ufl_get_component s x = Ok (t, s') /\ VInv n s' R E a /\
      (forall c cs, component_list n E x c cs -> t = fold_left add (map a cs) (a c)).
  Proof.
    intros I Hx. unfold ufl_get_component.
    destruct (ufl_root_ok _ _ _ _ _ _ I Hx) as (s1 & E1 & I1 & _ & Es & _). rewrite E1; cbn [bind].
    destruct (vi_sum _ _ _ _ _ I1 x Hx) as (t & Et & Ot). rewrite Et; cbn [bind].
    eexists _, _. split; [reflexivity|]. split; auto. intros c cs HC.
    pose proof (cls_component _ _ _ _ _ _ _ (vi_uf _ _ _ _ _ I) Hx HC) as P.
    rewrite <- (osum_perm add (ll_assoc _ _ _ _ _ _ _ LL) (ll_comm _ _ _ _ _ _ _ LL) _ _ (Permutation_map a P)) in Ot. cbn [map] in Ot.
    rewrite osum_fold in Ot by apply LL. injection Ot as <-. auto.
  Qed.

  Lemma ufl_get_point_ok n s R E a x : VInv n s R E a -> 0 <= x < n ->
    exists s', ufl_get_point mapping s x = Ok (a x, s') /\ VInv n s' R E a.
  Proof.
    intros I Hx. unfold ufl_get_point.
    destruct (vi_val _ _ _ _ _ I x Hx) as (v & lz & Ev & Elz & Ea). rewrite Ev; cbn [bind].
    destruct (ufl_root_ok _ _ _ _ _ _ I Hx) as (s1 & E1 & I1 & _ & _ & Es). rewrite E1; cbn [bind].
    rewrite Es, Elz; cbn [bind]. rewrite Ea. eauto.
  Qed.

  Lemma ufl_apply_component_ok n s R E a x f : VInv n s R E a -> 0 <= x < n ->
    exists s', ufl_apply_component mapping comp s x f = Ok s' /\
      VInv n s' R E (fun v => if (0 <=? v) && (v <? n) && (R v =? R x) then mapping f (a v) 1 else a v).
  Proof.
    intros I Hx. unfold ufl_apply_component.
    destruct (ufl_root_ok _ _ _ _ _ _ I Hx) as (s1 & E1 & I1 & _). rewrite E1; cbn [bind].
    clear s E1 I; rename s1 into s, I1 into I.
    destruct (vi_sum _ _ _ _ _ I x Hx) as (t & Et & Ot). rewrite Et; cbn [bind].
    pose proof (vi_uf _ _ _ _ _ I) as U. pose proof (vi_n _ _ _ _ _ I) as Hn.
    destruct (UInv_R_range _ _ _ _ _ U Hx) as [Rx RRx].
    unfold uf_size. destruct (uf_root_ok _ _ _ _ _ Hn U Rx) as (u2 & E2 & Hn2 & I2). rewrite RRx in E2. rewrite E2; cbn [bind].
    rewrite (ui_size _ _ _ _ I2 x Hx); cbn [bind].
    pose proof (vi_zlen _ _ _ _ _ I) as Lz. pose proof (vi_vlen _ _ _ _ _ I) as Lv. pose proof (vi_slen _ _ _ _ _ I) as Ls.
    rewrite vset_ok by lia; cbn [bind].
    destruct (vget_Ok (fl_laz s) (R x)) as (lx & Elx); [lia|]. rewrite Elx; cbn [bind]. rewrite vset_ok by lia; cbn [bind].
    eexists; split; [reflexivity|].
    constructor; cbn [fl_luf fl_val fl_sum fl_laz luf_uf]; rewrite ?zlen_zupd; auto; try lia.
    - pose proof (vi_luf _ _ _ _ _ I) as J. destruct (fl_luf s) as [u0 link]. cbn.
      eapply LInv_ext; eauto; [|intros ? ?; tauto]. split; eauto.
    - intros z Hz. destruct (vi_val _ _ _ _ _ I z Hz) as (v & lz & Evz & Elz & Ez).
      replace ((0 <=? z) && (z <? n)) with true by lia. cbn [andb].
      destruct (R z =? R x) eqn:Cz.
      + exists v, (comp f lx). split; auto. replace (R z) with (R x) in * by lia. rewrite vget_zupd_same by lia. split; auto.
        rewrite act_comp. rewrite Elx in Elz; injection Elz as <-. rewrite Ez. auto.
      + exists v, lz. split; auto. rewrite vget_zupd_diff by lia. auto.
    - intros z Hz. destruct (R z =? R x) eqn:Cz.
      + replace (R z) with (R x) by lia. eexists. rewrite vget_zupd_same by lia. split; [reflexivity|].
        rewrite (osum_map_ext _ (fun v => mapping f (a v) 1)).
        * rewrite (osum_mapping f a _ t Ot). f_equal. f_equal. unfold cls, count. rewrite Z.opp_involutive. auto.
        * intros v Iv. apply cls_In in Iv. replace ((0 <=? v) && (v <? n) && (R v =? R x)) with true by lia. auto.
      + destruct (vi_sum _ _ _ _ _ I z Hz) as (t' & Et' & Ot'). exists t'. rewrite vget_zupd_diff by lia. split; auto.
        rewrite <- Ot'. apply osum_map_ext. intros v Iv. apply cls_In in Iv.
        replace (R v =? R x) with false by lia. rewrite andb_false_r. auto.
  Qed.

  Lemma sum_replace (a : Z -> T) l x b t : NoDup l -> In x l -> osum add (map a l) = Some t ->
    osum add (map (fun v => if v =? x then b else a v) l) = Some (add (add t (neg (a x))) b).
  Proof.
    intros ND Ix O. apply in_split in Ix. destruct Ix as (l1 & l2 & ->).
    assert (P : Permutation (l1 ++ x :: l2) (x :: l1 ++ l2)) by (symmetry; apply Permutation_middle).
    pose proof (ll_assoc _ _ _ _ _ _ _ LL) as As. pose proof (ll_comm _ _ _ _ _ _ _ LL) as Co.
    rewrite (osum_perm add As Co _ _ (Permutation_map _ P)).
    rewrite (osum_perm add As Co _ _ (Permutation_map _ P)) in O. cbn [map] in *.
    rewrite Z.eqb_refl. apply NoDup_remove_2 in ND.
    change (oop add (Some (a x)) (osum add (map a (l1 ++ l2))) = Some t) in O.
    change (oop add (Some b) (osum add (map (fun v => if v =? x then b else a v) (l1 ++ l2))) = Some (add (add t (neg (a x))) b)).
    rewrite (osum_map_ext _ a).
    2:{ intros v Iv. destruct (v =? x) eqn:Cv; auto. exfalso. replace x with v in ND by lia. tauto. }
    destruct (osum add (map a (l1 ++ l2))) as [t'|].
    - simpl in *. injection O as <-. f_equal.
      rewrite (Co (a x) t'). rewrite <- (As t' (a x)). rewrite (ll_neg _ _ _ _ _ _ _ LL), (Co t' zero), (ll_zero _ _ _ _ _ _ _ LL).
      apply Co.
    - simpl in *. injection O as <-. f_equal.
      rewrite (ll_neg _ _ _ _ _ _ _ LL). symmetry. apply LL.
  Qed.

  Lemma ufl_apply_point__ok n s R E a x f : VInv n s R E a -> 0 <= x < n ->
    exists s', ufl_apply_point_ add neg mapping inv s x f = Ok s' /\
      VInv n s' R E (fun v => if v =? x then f (a x) else a v).
  Proof.
    intros I Hx. unfold ufl_apply_point_.
    destruct (ufl_root_ok _ _ _ _ _ _ I Hx) as (s1 & E1 & I1 & _). rewrite E1; cbn [bind].
    destruct (ufl_get_point_ok _ _ _ _ _ _ I1 Hx) as (s2 & E2 & I2). rewrite E2; cbn [bind].
    clear s E1 I s1 E2 I1; rename s2 into s, I2 into I.
    destruct (vi_sum _ _ _ _ _ I x Hx) as (t & Et & Ot). rewrite Et; cbn [bind].
    pose proof (vi_uf _ _ _ _ _ I) as U. pose proof (vi_n _ _ _ _ _ I) as Hn.
    destruct (UInv_R_range _ _ _ _ _ U Hx) as [Rx RRx].
    pose proof (vi_zlen _ _ _ _ _ I) as Lz. pose proof (vi_vlen _ _ _ _ _ I) as Lv. pose proof (vi_slen _ _ _ _ _ I) as Ls.
    rewrite vset_ok by lia; cbn [bind]. rewrite vget_zupd_same by lia; cbn [bind].
    rewrite vset_ok by (rewrite zlen_zupd; lia); cbn [bind].
    destruct (vget_Ok (fl_laz s) (R x)) as (lx & Elx); [lia|]. rewrite Elx; cbn [bind]. rewrite vset_ok by lia; cbn [bind].
    eexists; split; [reflexivity|]. rewrite zupd_zupd_same.
    constructor; cbn [fl_luf fl_val fl_sum fl_laz luf_uf]; rewrite ?zlen_zupd; auto; try apply I.
    - intros z Hz. destruct (vi_val _ _ _ _ _ I z Hz) as (v & lz & Evz & Elz & Ez).
      rewrite vget_zupd by lia. rewrite (Z.eqb_sym x z).
      destruct (z =? x) eqn:Cz.
      + replace z with x by lia. exists (mapping (inv lx) (f (a x)) 1), lx. split; auto. split; auto. now rewrite act_cancel.
      + exists v, lz. auto.
    - intros z Hz. destruct (R z =? R x) eqn:Cz.
      + replace (R z) with (R x) by lia. eexists. rewrite vget_zupd_same by lia. split; [reflexivity|].
        apply (sum_replace a); auto using cls_NoDup. apply cls_In. auto.
      + destruct (vi_sum _ _ _ _ _ I z Hz) as (t' & Et' & Ot'). exists t'. rewrite vget_zupd_diff by lia. split; auto.
        rewrite <- Ot'. apply osum_map_ext. intros v Iv. apply cls_In in Iv.
        destruct (v =? x) eqn:Cv; auto. replace v with x in Iv by lia. lia.
  Qed.

  Lemma ufl_propagate_ok n s R E a x : VInv n s R E a -> 0 <= x < n ->
    exists s', ufl_propagate mapping idf s x = Ok s' /\ VInv n s' R E a.
  Proof.
    intros I Hx. unfold ufl_propagate.
    destruct (ufl_root_ok _ _ _ _ _ _ I Hx) as (s1 & E1 & I1 & _). rewrite E1; cbn [bind].
    clear s E1 I; rename s1 into s, I1 into I.
    pose proof (vi_uf _ _ _ _ _ I) as U. pose proof (vi_n _ _ _ _ _ I) as Hn.
    destruct (UInv_R_range _ _ _ _ _ U Hx) as [Rx RRx].
    pose proof (vi_zlen _ _ _ _ _ I) as Lz. pose proof (vi_vlen _ _ _ _ _ I) as Lv. pose proof (vi_slen _ _ _ _ _ I) as Ls.
    destruct (vget_Ok (fl_laz s) (R x)) as (lx & Elx); [lia|]. rewrite Elx; cbn [bind]. rewrite vset_ok by lia; cbn [bind].
    destruct (luf_component_ok _ _ _ _ (vi_luf _ _ _ _ _ I) Rx) as (cl & Ecl & NDcl & Icl).
    rewrite Ecl; cbn [bind].
    destruct (map_vals_ok lx (R x :: cl) (fl_val s) NDcl) as (val' & Ev & Lv' & V1 & V2).
    { intros v Iv. apply Icl in Iv. lia. }
    rewrite Ev; cbn [bind]. eexists; split; [reflexivity|].
    constructor; cbn [fl_luf fl_val fl_sum fl_laz luf_uf]; rewrite ?zlen_zupd; auto; try apply I; try lia.
    intros z Hz. destruct (vi_val _ _ _ _ _ I z Hz) as (v & lz & Evz & Elz & Ez).
    destruct (R z =? R x) eqn:Cz.
    - assert (HRz : R z = R x) by lia. rewrite HRz in Elz. rewrite HRz, vget_zupd_same by lia.
      exists (mapping lx v 1), idf. split; [|split; auto].
      + apply V1; auto. apply Icl. split; auto. apply (ui_conn _ _ _ _ U); auto. lia.
      + rewrite (ll_id _ _ _ _ _ _ _ LL). rewrite Elx in Elz. injection Elz as <-. auto.
    - rewrite vget_zupd_diff by lia. exists v, lz. split; auto. rewrite V2; auto.
      intro Iv. apply Icl in Iv. destruct Iv as [_ Cn]. apply (ui_conn _ _ _ _ U) in Cn; auto. lia.
  Qed.

  Lemma ufl_step_ok n s R E a o : VInv n s R E a -> lop_ok n o ->
    exists r s' R' E' a', ufl_step add neg mapping comp idf inv s o = Ok (r, s') /\
      lstep add mapping n (E, a) o r (E', a') /\ VInv n s' R' E' a'.
  Proof.
    intros I Ho. destruct o as [x y|x|x|x f|x f|x v|x]; cbn [ufl_step lop_ok] in *.
    - destruct Ho as [Hx Hy]. destruct (ufl_merge_ok _ _ _ _ _ _ _ I Hx Hy) as (b & s' & R' & Em & I' & Hb).
      rewrite Em; cbn [bind]. eexists _, _, _, _, _. split; [reflexivity|]. split; eauto. now constructor.
    - destruct (ufl_get_component_ok _ _ _ _ _ _ I Ho) as (t & s' & Em & I' & Hb).
      rewrite Em; cbn [bind]. eexists _, _, _, _, _. split; [reflexivity|]. split; eauto. now constructor.
    - destruct (ufl_get_point_ok _ _ _ _ _ _ I Ho) as (s' & Em & I').
      rewrite Em; cbn [bind]. eexists _, _, _, _, _. split; [reflexivity|]. split; eauto. now constructor.
    - destruct (ufl_apply_component_ok _ _ _ _ _ _ f I Ho) as (s' & Em & I').
      rewrite Em; cbn [bind]. eexists _, _, _, _, _. split; [reflexivity|]. split; eauto.
      pose proof (vi_uf _ _ _ _ _ I) as U.
      constructor; intros v Cv.
      + assert (Hv : 0 <= v < n) by (apply (connected_range n E x v (ui_E _ _ _ _ U)); auto).
        apply (ui_conn _ _ _ _ U) in Cv; auto.
        replace ((0 <=? v) && (v <? n) && (R v =? R x)) with true by lia. auto.
      + destruct ((0 <=? v) && (v <? n) && (R v =? R x)) eqn:B; auto. exfalso. apply Cv.
        apply (ui_conn _ _ _ _ U); auto; lia.
    - destruct (ufl_apply_point__ok _ _ _ _ _ _ (fun t => mapping f t 1) I Ho) as (s' & Em & I').
      unfold ufl_apply_point. rewrite Em; cbn [bind]. eexists _, _, _, _, _. split; [reflexivity|]. split; eauto. now constructor.
    - destruct (ufl_apply_point__ok _ _ _ _ _ _ (fun t => v) I Ho) as (s' & Em & I').
      unfold ufl_set_point. rewrite Em; cbn [bind]. eexists _, _, _, _, _. split; [reflexivity|]. split; eauto. now constructor.
    - destruct (ufl_propagate_ok _ _ _ _ _ _ I Ho) as (s' & Em & I').
      rewrite Em; cbn [bind]. eexists _, _, _, _, _. split; [reflexivity|]. split; eauto. now constructor.
  Qed.

  Lemma ufl_run_ok n ops : Forall (lop_ok n) ops -> forall s R E a, VInv n s R E a ->
    exists rs s', ufl_run add neg mapping comp idf inv s ops = Ok (rs, s') /\ lruns add mapping n (E, a) ops rs.
  Proof.
    induction 1 as [|o ops Ho Fo IH]; intros s R E a I; cbn [ufl_run].
    - eexists _, _; split; [reflexivity|constructor].
    - destruct (ufl_step_ok _ _ _ _ _ _ I Ho) as (r & s' & R' & E' & a' & Es & St & I'). rewrite Es; cbn [bind].
      destruct (IH _ _ _ _ I') as (rs & s'' & Er & Rr). rewrite Er; cbn [bind].
      eexists _, _; split; [reflexivity|]. econstructor; eauto.
  Qed.
End L.
