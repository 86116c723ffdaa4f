(* Rerooting: the two passes *)
From Verif Require Import Base BaseLemmas ListZ ListMore Seq Graph_spec Tree_spec BFS_proof Tree_proof Tree_proof2 Tree_proof3 Tree_proof4 HLD_proof HLD_proof2 HLD_proof3 Rerooting_model Rerooting_spec Rerooting_proof.
From Coq Require Import Permutation.

Scheme below_mut := Induction for below Sort Prop with branches_mut := Induction for branches Sort Prop.

Lemma filter_map {A B} (f : A -> B) (p : B -> bool) l : filter p (map f l) = map f (filter (fun x => p (f x)) l).
Proof. induction l as [|x l IH]; auto. cbn. rewrite IH. destruct (p (f x)); reflexivity. Qed.
Lemma take_perm {W} (u : Z) (w : W) l : NoDup (map fst l) -> In (u, w) l -> Permutation l (filter (fun vw => negb (fst vw =? u)) l ++ [(u, w)]).
Proof.
  induction l as [|(v, x) l IH]; intros N I; [destruct I|]. cbn [map fst] in N. inversion N as [|? ? Nv Nl]; subst. cbn [filter fst].
  destruct (Z.eqb_spec v u) as [->|Ne]; cbn [negb].
  - assert (x = w). { destruct I as [E|I]; [congruence|]. exfalso. apply Nv. apply in_map_iff. exists (u, w). auto. } subst x.
    rewrite filter_id; [apply Permutation_cons_append|]. intros (y, z) Iy. cbn [fst]. apply Bool.negb_true_iff, Z.eqb_neq. intros ->. apply Nv. apply in_map_iff. exists (u, z). auto.
  - destruct I as [E|I]; [congruence|]. cbn [app]. constructor. auto.
Qed.
Lemma drop_mid {W} (v : Z) (w : W) a b : NoDup (map fst (a ++ (v, w) :: b)) -> filter (fun vw => negb (fst vw =? v)) (a ++ (v, w) :: b) = a ++ b.
Proof.
  intros N. rewrite filter_app. cbn [filter fst]. rewrite Z.eqb_refl. cbn [negb]. rewrite map_app in N. cbn [map fst] in N. pose proof (NoDup_remove_2 _ _ _ N) as X. rewrite in_app_iff in X.
  f_equal; apply filter_id; intros (y, z) I; cbn [fst]; apply Bool.negb_true_iff, Z.eqb_neq; intros ->; apply X; [left|right]; apply in_map_iff; exists (v, z); auto.
Qed.

Section Spec.
  Context {VW W DP : Type}.
  Variables (op : DP -> DP -> DP) (e : DP) (asr : DP -> VW -> W -> DP) (ws : list VW).
  Hypothesis M : is_monoid op e.
  Hypothesis C : forall x y, op x y = op y x.
  Notation below := (below op e asr).
  Notation branches := (branches op e asr).
  Section Nb.
    Variable nb : Z -> list (Z * W).
    Lemma branches_app u a b x y : branches nb ws u a x -> branches nb ws u b y -> branches nb ws u (a ++ b) (op x y).
    Proof.
      intros A B. revert x A. induction a as [|(v, w) a IH]; intros x A; inversion A; subst; cbn [app]; [now rewrite (mon_l _ _ M)|]. rewrite <- (mon_assoc _ _ M). econstructor; eauto.
    Qed.
    Lemma branches_one u v w wv x : below nb ws v u x -> vget ws v = Ok wv -> branches nb ws u [(v, w)] (asr x wv w).
    Proof. intros B E. rewrite <- (mon_r _ _ M (asr x wv w)). econstructor; eauto. constructor. Qed.
    Lemma branches_perm u a b : Permutation a b -> forall x, branches nb ws u a x -> branches nb ws u b x.
    Proof.
      induction 1 as [|(v, w) a b P IH|(v, w) (v', w') a|a b c P1 IH1 P2 IH2]; intros x A; auto.
      - inversion A; subst. econstructor; eauto.
      - inversion A as [|? ? ? ? ? ? ? ? ? A']; subst. inversion A'; subst. rewrite (mon_assoc _ _ M), (C (asr _ _ _) (asr _ _ _)), <- (mon_assoc _ _ M). econstructor; eauto. econstructor; eauto.
    Qed.
  End Nb.
  Lemma filter_perm {A} (f : A -> bool) a b : Permutation a b -> Permutation (filter f a) (filter f b).
  Proof. induction 1 as [|x a b P IH|x y a|a b c P1 IH1 P2 IH2]; cbn; auto; [now destruct (f x); auto|destruct (f x), (f y); try reflexivity; apply perm_swap|now rewrite IH1]. Qed.
  Lemma below_perm nb nb' : (forall u, Permutation (nb u) (nb' u)) -> forall u p x, below nb ws u p x -> below nb' ws u p x.
  Proof.
    intros P. apply (below_mut VW W DP op e asr nb ws (fun u p x _ => below nb' ws u p x) (fun u l x _ => branches nb' ws u l x)).
    - intros u p x B IH. constructor. eapply branches_perm; [|exact IH]. apply filter_perm, P.
    - intros. constructor.
    - intros. econstructor; eauto.
  Qed.
  Lemma below_fun nb : forall u p x, below nb ws u p x -> forall y, below nb ws u p y -> x = y.
  Proof.
    apply (below_mut VW W DP op e asr nb ws (fun u p x _ => forall y, below nb ws u p y -> x = y) (fun u l x _ => forall y, branches nb ws u l y -> x = y)).
    - intros u p x B IH y By. inversion By; subst. auto.
    - intros u y B. now inversion B.
    - intros u v w wv l x y B IH E Br IH2 z Bz. inversion Bz; subst. f_equal; [|auto]. rewrite H5 in E. injection E as ->. f_equal. auto.
  Qed.
End Spec.

Section Run.
  Context {VW W DP : Type}.
  Variables (op : DP -> DP -> DP) (e : DP) (asr : DP -> VW -> W -> DP) (ar : DP -> VW -> DP).
  Hypothesis M : is_monoid op e.
  Hypothesis C : forall x y, op x y = op y x.
  Variables (gr : csr W) (ws : list VW) (nb : Z -> list (Z * W)) (g : list (list Z)) (par dep rt : Z -> Z).
  Notation n := (zlen g).
  Hypothesis Gr : forall u, vertex g u -> csr_row gr u = Ok (nb u).
  Hypothesis Gn : forall u, vertex g u -> vget g u = Ok (map fst (nb u)).
  Hypothesis Lw : zlen ws = n.
  Hypothesis Sy : forall u v w, In (v, w) (nb u) -> In (u, w) (nb v).
  Hypothesis R : rooted g par.
  Hypothesis D : dep_ok g par dep rt.
  Notation below := (below op e asr nb ws).
  Notation branches := (branches op e asr nb ws).
  Notation fits := (fits g par).
  Notation ga := (gv e).
  Notation np p := (fun vw : Z * W => negb (fst vw =? p)).
  Lemma nb_vertex u v w : vertex g u -> In (v, w) (nb u) -> vertex g v.
  Proof. intros Hu I. destruct (row_ok g par R u Hu) as (adj & Ea & _ & Ia). rewrite (Gn u Hu) in Ea. injection Ea as <-. apply (Ia v). apply in_map_iff. exists (v, w). auto. Qed.
  Lemma nb_nodup u : vertex g u -> NoDup (map fst (nb u)).
  Proof. intros Hu. apply (row_nodup g par R u); auto. Qed.
  Lemma ws_ok v : vertex g v -> exists wv, vget ws v = Ok wv.
  Proof. intros Hv. apply vget_Ok. rewrite Lw. exact Hv. Qed.
  (* the children come in the order of the rows *)
  Lemma split_kids u cs (row : list (Z * W)) a v w b cs1 cs2 : row = a ++ (v, w) :: b -> map root cs = filter (fun v => negb (v =? par u)) (map fst row) -> cs = cs1 ++ cs2 ->
    map root cs1 = filter (fun v => negb (v =? par u)) (map fst a) -> v <> par u -> exists c cs3, cs2 = c :: cs3 /\ root c = v /\ map root (cs1 ++ [c]) = filter (fun v => negb (v =? par u)) (map fst (a ++ [(v, w)])).
  Proof.
    intros -> Hm -> H1 Nv. rewrite map_app, H1, map_app, filter_app in Hm. apply app_inv_head in Hm. cbn [map fst filter] in Hm. rewrite (proj2 (Z.eqb_neq _ _) Nv) in Hm. cbn [negb] in Hm.
    destruct cs2 as [|c cs3]; [discriminate|]. cbn [map] in Hm. injection Hm as Hc Hm. exists c, cs3. split; auto. split; auto. rewrite !map_app, filter_app, H1. cbn [map filter fst]. rewrite (proj2 (Z.eqb_neq _ _) Nv). cbn [negb]. now rewrite Hc.
  Qed.
  Lemma kid_disj u cs cs1 c cs3 : fits (Rose u cs) -> cs = cs1 ++ c :: cs3 -> forall w, In w (nodes c) -> w <> u /\ ~ In w (cnodes cs1) /\ ~ In w (cnodes cs3) /\ vertex g w.
  Proof.
    intros F E w I. pose proof (fits_nodup g par dep rt R D _ F) as N. cbn [nodes] in N. inversion N as [|? ? Nu Nc]. subst. rewrite flat_map_app in *. cbn [flat_map] in *.
    split; [intros ->; apply Nu; rewrite !in_app_iff; auto|]. split; [intros I2; apply (NoDup_app_disj _ _ w Nc I2); apply in_app_iff; auto|]. split.
    - intros I2. apply NoDup_app_r in Nc. apply (NoDup_app_disj _ _ w Nc I I2).
    - inversion F as [? ? adj Hu Ea Mc Pc Fc]; subst. apply (fits_anc g par c); auto. apply Fc, in_app_iff. right. now left.
  Qed.

  (* the first pass *)
  Definition pass1 (u : Z) (cs : list rose) (dp0 : list DP) (done : list (Z * W)) (dp : list DP) : Prop :=
    exists cs1 cs2, cs = cs1 ++ cs2 /\ map root cs1 = filter (fun v => negb (v =? par u)) (map fst done) /\ zlen dp = n /\
      branches u (filter (np (par u)) done) (ga dp u) /\ (forall w, In w (cnodes cs1) -> below w (par w) (ga dp w)) /\
      (forall w, vertex g w -> w <> u -> ~ In w (cnodes cs1) -> ga dp w = ga dp0 w).
  Lemma dfs1_ok fuel : forall t, fits t -> (length (nodes t) <= fuel)%nat -> forall dp, zlen dp = n -> (forall w, In w (nodes t) -> ga dp w = e) ->
    exists dp', rr_dfs1 op asr gr ws fuel (root t) (par (root t)) dp = Ok dp' /\ zlen dp' = n /\ (forall w, In w (nodes t) -> below w (par w) (ga dp' w)) /\
      (forall w, vertex g w -> ~ In w (nodes t) -> ga dp' w = ga dp w).
  Proof.
    induction fuel as [|fuel IH]; intros t F Lf dp Ld D0; [destruct t; cbn in Lf; lia|]. destruct t as [u cs]. cbn [root].
    pose proof F as F'. inversion F' as [? ? adj Hu Ea Mc Pc Fc]; subst u0 cs0. rewrite (Gn u Hu) in Ea. injection Ea as <-. pose proof Hu as Hu'. unfold vertex in Hu'.
    cbn [rr_dfs1]. rewrite (Gr u Hu). cbn [bind]. cbn [nodes] in Lf, D0.
    destruct (for_each_inv (pass1 u cs dp) (nb u) (fun '(v, w) dp => if v =? par u then Ok dp else
          let* dp := rr_dfs1 op asr gr ws fuel v u dp in
          let* du := vget dp u in let* dv := vget dp v in let* wv := vget ws v in
          vset dp u (op du (asr dv wv w))) dp) as (dp' & E' & cs1 & cs2 & Ecs & M1 & L' & Bu & B1 & Fr).
    - exists [], cs. split; [auto|]. split; [auto|]. split; [auto|]. split; [|split; [intros w []|auto]]. rewrite D0 by now left. constructor.
    - intros a (v, w) b s Er (cs1 & cs2 & Ecs & M1 & L' & Bu & B1 & Fr). unfold pass1. rewrite filter_app, map_app, filter_app. cbn [filter map fst].
      destruct (Z.eqb_spec v (par u)) as [Ev|Nv]; cbn [negb]; [exists s; split; auto; exists cs1, cs2; rewrite !app_nil_r; auto 10|].
      destruct (split_kids u cs (nb u) a v w b cs1 cs2 Er Mc Ecs M1 Nv) as (c & cs3 & -> & Rc & M2). pose proof (kid_disj u cs cs1 c cs3 F Ecs) as Dj.
      assert (Ic : In c cs) by (rewrite Ecs; apply in_app_iff; right; now left). assert (Pv : par v = u) by (rewrite <- Rc; auto).
      assert (Cn : cnodes cs = cnodes cs1 ++ nodes c ++ cnodes cs3) by (rewrite Ecs; apply cnodes_app).
      assert (Rv : In v (nodes c)) by (rewrite <- Rc; destruct c; now left). destruct (Dj v Rv) as (Nvu & _ & _ & Hv). pose proof Hv as Hv'. unfold vertex in Hv'.
      destruct (IH c (Fc c Ic)) with (dp := s) as (s' & Es & Ls & Bs & Fs); auto.
      { fold (cnodes cs) in Lf. rewrite Cn in Lf. cbn [length] in Lf. rewrite !app_length in Lf. lia. }
      { intros x Ix. destruct (Dj x Ix) as (X1 & X2 & X3 & X4). rewrite Fr by auto. apply D0. right. apply in_flat_map. exists c. auto. }
      rewrite Rc, Pv in Es. rewrite Es. cbn [bind]. rewrite !(vget_gv e) by lia. cbn [bind]. destruct (ws_ok v Hv) as (wv & Ew). rewrite Ew. cbn [bind]. rewrite vset_ok by lia.
      eexists. split; [reflexivity|]. exists (cs1 ++ [c]), cs3. rewrite <- app_assoc. split; [auto|].
      rewrite M2, map_app, filter_app. cbn [map filter fst]. rewrite (proj2 (Z.eqb_neq _ _) Nv). cbn [negb]. split; [auto|]. rewrite zlen_zupd. split; [auto|].
      assert (Cs : cnodes (cs1 ++ [c]) = cnodes cs1 ++ nodes c) by (rewrite cnodes_app; cbn [cnodes flat_map]; now rewrite app_nil_r). rewrite Cs.
      assert (V1 : forall x, In x (cnodes cs1) -> vertex g x /\ x <> u /\ ~ In x (nodes c)).
      { intros x Ix. pose proof (fits_nodup g par dep rt R D _ F) as N. cbn [nodes] in N. inversion N as [|? ? Nu Nc]; subst x0 l. fold (cnodes cs) in Nu, Nc. rewrite Cn in Nu, Nc.
        apply in_flat_map in Ix as Ix'. destruct Ix' as (d & Id & Ix'). split; [apply (fits_anc g par d); auto; apply Fc; rewrite Ecs; apply in_app_iff; auto|].
        split; [intros ->; apply Nu, in_app_iff; auto|]. intros I2. apply (NoDup_app_disj _ _ x Nc Ix). apply in_app_iff. auto. }
      split; [|split].
      + rewrite gv_zupd_same by lia. rewrite Fs; auto; [|intros I; destruct (Dj u I) as (X & _); now apply X]. apply branches_app; auto. apply branches_one; auto. rewrite <- Pv. now apply Bs.
      + intros x Ix. apply in_app_iff in Ix as [Ix|Ix].
        * destruct (V1 x Ix) as (Hx & Nx & Nx2). pose proof Hx as Hx'. unfold vertex in Hx'. rewrite gv_zupd_other by (auto; lia). rewrite Fs by auto. auto.
        * destruct (Dj x Ix) as (Nx & _ & _ & Hx). pose proof Hx as Hx'. unfold vertex in Hx'. rewrite gv_zupd_other by (auto; lia). auto.
      + intros x Hx Nx Ix. rewrite in_app_iff in Ix. pose proof Hx as Hx'. unfold vertex in Hx'. rewrite gv_zupd_other by (auto; lia). rewrite Fs by auto. auto.
    - exists dp'. split; [exact E'|]. split; auto.
      assert (Ec : cs2 = []). { rewrite Ecs, map_app, M1 in Mc. rewrite <- app_nil_r in Mc. apply app_inv_head in Mc. now destruct cs2. } subst cs2. rewrite app_nil_r in Ecs. subst cs1.
      cbn [nodes]. fold (cnodes cs). split.
      + intros x [<-|Ix]; auto. constructor. auto.
      + intros x Hx Nx. apply Fr; auto; [intros ->; apply Nx; now left|intros I; apply Nx; now right].
  Qed.

  (* the second pass *)
  Definition final (w : Z) (y : DP) : Prop := exists x wv, below w (-1) x /\ vget ws w = Ok wv /\ y = ar x wv.
  Lemma term_ok u v w sum_p dp : vertex g u -> zlen dp = n -> In (v, w) (nb u) -> (par u <> -1 -> below (par u) u sum_p) -> (v <> par u -> below v (par v) (ga dp v)) ->
    exists x wv, rr_term asr ws (par u) sum_p dp v w = Ok (asr x wv w) /\ below v u x /\ vget ws v = Ok wv.
  Proof.
    intros Hu Ld I Hp Hd. pose proof (nb_vertex _ _ _ Hu I) as Hv. pose proof Hv as Hv'. unfold vertex in Hv'. destruct (ws_ok v Hv) as (wv & Ew). unfold rr_term.
    destruct (Z.eqb_spec v (par u)) as [Ev|Nv]; cbn [bind].
    - rewrite Ew. exists sum_p, wv. split; [auto|]. split; auto. rewrite Ev. apply Hp. lia.
    - rewrite (vget_gv e) by lia. cbn [bind]. rewrite Ew. exists (ga dp v), wv. split; [auto|]. split; auto.
      destruct (row_ok g par R u Hu) as (adj & Ea & _ & Ia). rewrite (Gn u Hu) in Ea. injection Ea as <-. destruct (proj1 (Ia v)) as (_ & [X|X]); [apply in_map_iff; exists (v, w); auto|rewrite <- X at 1; auto|congruence].
  Qed.
  Definition dok (u : Z) (dp : list DP) : Prop := forall v w, In (v, w) (nb u) -> v <> par u -> below v (par v) (ga dp v).
  Lemma sum_r_ok u sum_p dp : vertex g u -> zlen dp = n -> (par u <> -1 -> below (par u) u sum_p) -> dok u dp ->
    exists sr, rr_sum_r op e asr ws (par u) sum_p dp (nb u) = Ok sr /\ zlen sr = zlen (nb u) + 1 /\ forall a b, nb u = a ++ b -> branches u b (ga sr (zlen a)).
  Proof.
    intros Hu Ld Hp Hd. pose proof (zlen_nonneg (nb u)) as Zn. unfold rr_sum_r.
    destruct (ford_inv (fun i sr => zlen sr = zlen (nb u) + 1 /\ forall a b, nb u = a ++ b -> i < zlen a -> branches u b (ga sr (zlen a))) (zlen (nb u) - 1) (-1)
      (fun i sr => let* (v, w) := vget (nb u) i in let* x := vget sr (i + 1) in let* y := rr_term asr ws (par u) sum_p dp v w in vset sr i (op x y)) (vrep (zlen (nb u) + 1) e)) as (sr & E & L & B).
    - lia.
    - split; [apply zlen_vrep; lia|]. intros a b Er La. assert (X : zlen (nb u) = zlen a + zlen b) by (rewrite Er; apply zlen_app). pose proof (zlen_nonneg b). destruct b as [|x b]; [|rewrite zlen_cons in X; pose proof (zlen_nonneg b); lia].
      rewrite gv_vrep by (pose proof (zlen_nonneg a); lia). constructor.
    - intros i sr Hi (L & B). destruct (vget_Ok (nb u) i) as ((v, w) & Ev); [lia|]. rewrite Ev. cbn [bind]. rewrite (vget_gv e) by lia. cbn [bind].
      destruct (term_ok u v w sum_p dp Hu Ld (vget_In _ _ _ Ev) Hp (Hd v w (vget_In _ _ _ Ev))) as (x & wv & Et & Bx & Ew).
      rewrite Et. cbn [bind]. rewrite vset_ok by lia. eexists. split; [reflexivity|]. rewrite zlen_zupd. split; [auto|]. intros a b Er La.
      assert (X : zlen (nb u) = zlen a + zlen b) by (rewrite Er; apply zlen_app). pose proof (zlen_nonneg b). destruct (Z.eq_dec i (zlen a)) as [Ei|Ni].
      + rewrite <- Ei, gv_zupd_same by lia. destruct b as [|(v', w') b]; [change (zlen (@nil (Z * W))) with 0 in X; lia|].
        assert ((v', w') = (v, w)). { rewrite Er, vget_mid in Ev by auto. congruence. } injection H0 as -> ->.
        rewrite C. econstructor; eauto. rewrite Ei. replace (zlen a + 1) with (zlen (a ++ [(v, w)])) by (rewrite zlen_app, zlen_one; auto). apply B; [now rewrite <- app_assoc|rewrite zlen_app, zlen_one; lia].
      + rewrite gv_zupd_other by lia. apply B; auto. lia.
    - exists sr. split; [exact E|]. split; auto. intros a b Er. apply B; auto. pose proof (zlen_nonneg a). lia.
  Qed.

  Definition pass2 (u : Z) (cs : list rose) (dp0 : list DP) (i : Z) (s : DP * list DP) : Prop :=
    let '(sl, dp) := s in exists a b cs1 cs2, nb u = a ++ b /\ zlen a = i /\ cs = cs1 ++ cs2 /\ map root cs1 = filter (fun v => negb (v =? par u)) (map fst a) /\ zlen dp = n /\
      branches u a sl /\ (forall w, In w (cnodes cs1) -> final w (ga dp w)) /\ (forall w, vertex g w -> ~ In w (cnodes cs1) -> ga dp w = ga dp0 w).
  Lemma dfs2_ok fuel : forall t, fits t -> (length (nodes t) <= fuel)%nat -> forall dp sum_p, zlen dp = n -> (par (root t) <> -1 -> below (par (root t)) (root t) sum_p) ->
    (forall w, In w (nodes t) -> w <> root t -> below w (par w) (ga dp w)) ->
    exists dp', rr_dfs2 op e asr ar gr ws fuel (root t) (par (root t)) sum_p dp = Ok dp' /\ zlen dp' = n /\ (forall w, In w (nodes t) -> w <> root t -> final w (ga dp' w)) /\
      (forall w, vertex g w -> ~ In w (nodes t) \/ w = root t -> ga dp' w = ga dp w).
  Proof.
    induction fuel as [|fuel IH]; intros t F Lf dp sum_p Ld Hp D0; [destruct t; cbn in Lf; lia|]. destruct t as [u cs]. cbn [root] in *.
    pose proof F as F'. inversion F' as [? ? adj Hu Ea Mc Pc Fc]; subst u0 cs0. rewrite (Gn u Hu) in Ea. injection Ea as <-. pose proof Hu as Hu'. unfold vertex in Hu'.
    cbn [rr_dfs2]. rewrite (Gr u Hu). cbn [bind]. cbn [nodes] in Lf, D0. fold (cnodes cs) in Lf, D0.
    pose proof (fits_nodup g par dep rt R D _ F) as Nt. cbn [nodes] in Nt. fold (cnodes cs) in Nt. inversion Nt as [|? ? Nu Nc]; subst x l.
    assert (Hd : dok u dp).
    { intros v w I Nv. assert (I2 : In v (map root cs)). { rewrite Mc. apply filter_In. split; [apply in_map_iff; exists (v, w); auto|]. now apply Bool.negb_true_iff, Z.eqb_neq. }
      apply in_map_iff in I2 as (c & <- & Ic). assert (I3 : In (root c) (cnodes cs)) by (apply in_flat_map; exists c; split; auto; destruct c; now left). apply D0; [now right|]. intros X. rewrite X in I3. contradiction. }
    destruct (sum_r_ok u sum_p dp Hu Ld Hp Hd) as (sr & Es & Ls & Bs). rewrite Es. cbn [bind]. pose proof (zlen_nonneg (nb u)) as Zn. destruct (ws_ok u Hu) as (wu & Ewu).
    destruct (for_inv (pass2 u cs dp) 0 (zlen (nb u)) (rr_body op asr ar ws (rr_dfs2 op e asr ar gr ws fuel) u (par u) sum_p (nb u) sr) (e, dp)) as ((sl & dp') & E' & a & b & cs1 & cs2 & Er & La & Ecs & M1 & L' & Bu & B1 & Fr).
    - auto.
    - exists [], (nb u), [], cs. split; [auto|]. split; [auto|]. split; [auto|]. split; [auto|]. split; [auto|]. split; [constructor|]. split; [intros w []|auto].
    - intros i (sl & s) Hi (a & b & cs1 & cs2 & Er & La & Ecs & M1 & L' & Bu & B1 & Fr). unfold rr_body.
      destruct b as [|(v, w) b]; [rewrite app_nil_r in Er; rewrite Er in Hi; lia|]. assert (Ev : vget (nb u) i = Ok (v, w)) by (rewrite Er; now apply vget_mid). rewrite Ev. cbn [bind].
      assert (I : In (v, w) (nb u)) by (rewrite Er; apply in_app_iff; right; now left). pose proof (nb_vertex _ _ _ Hu I) as Hv. pose proof Hv as Hv'. unfold vertex in Hv'.
      assert (Nv1 : v <> par u -> ~ In v (cnodes cs1)).
      { intros Nv I1. destruct (split_kids u cs (nb u) a v w b cs1 cs2 Er Mc Ecs M1 Nv) as (c & cs3 & -> & Rc & _).
        assert (Rv : In v (nodes c)) by (rewrite <- Rc; destruct c; now left). destruct (kid_disj u cs cs1 c cs3 F Ecs v Rv) as (_ & X & _). contradiction. }
      destruct (term_ok u v w sum_p s Hu L' I Hp) as (x & wv & Et & Bx & Ew). { intros Nv. rewrite Fr by auto. apply (Hd v w); auto. }
      rewrite Et. cbn [bind]. cbv zeta. assert (Bn : branches u (a ++ [(v, w)]) (op sl (asr x wv w))) by (apply branches_app; auto; now apply branches_one).
      assert (Er' : nb u = (a ++ [(v, w)]) ++ b) by now rewrite <- app_assoc. assert (La' : zlen (a ++ [(v, w)]) = i + 1) by (rewrite zlen_app, zlen_one; lia).
      destruct (Z.eqb_spec v (par u)) as [Evp|Nv].
      + eexists. split; [reflexivity|]. exists (a ++ [(v, w)]), b, cs1, cs2. split; [auto|]. split; [auto|]. split; [auto|]. split; [rewrite map_app, filter_app; cbn [map filter fst]; rewrite Evp, Z.eqb_refl; cbn [negb]; now rewrite app_nil_r|]. auto 12.
      + rewrite (vget_gv e sr) by lia. cbn [bind]. rewrite (vget_gv e s) by lia. cbn [bind]. rewrite Ewu. cbn [bind]. rewrite Ew. cbn [bind]. rewrite vset_ok by lia. cbn [bind].
        destruct (split_kids u cs (nb u) a v w b cs1 cs2 Er Mc Ecs M1 Nv) as (c & cs3 & -> & Rc & M2). pose proof (kid_disj u cs cs1 c cs3 F Ecs) as Dj.
        assert (Ic : In c cs) by (rewrite Ecs; apply in_app_iff; right; now left). assert (Pv : par v = u) by (rewrite <- Rc; auto).
        assert (Cn : cnodes cs = cnodes cs1 ++ nodes c ++ cnodes cs3) by (rewrite Ecs; apply cnodes_app).
        assert (Rv : In v (nodes c)) by (rewrite <- Rc; destruct c; now left).
        set (lr := op sl (ga sr (i + 1))). set (sv := op (ga s v) (asr lr wu w)).
        assert (Blr : below u v lr).
        { constructor. rewrite Er, drop_mid by (rewrite <- Er; apply (nb_nodup); auto). apply branches_app; auto. rewrite <- La'. now apply Bs. }
        assert (Bsv : below v (-1) sv).
        { constructor. rewrite filter_id. 2:{ intros (y, z) Iy. cbn [fst]. apply Bool.negb_true_iff, Z.eqb_neq. pose proof (nb_vertex _ _ _ Hv Iy) as X. unfold vertex in X. lia. }
          eapply branches_perm; [exact M|exact C|symmetry; apply (take_perm u w); [apply (nb_nodup); auto|now apply Sy]|]. apply branches_app; auto.
          - rewrite Fr by auto. pose proof (Hd v w I Nv) as X. rewrite Pv in X. inversion X; auto.
          - apply branches_one; auto. }
        destruct (IH c (Fc c Ic)) with (dp := zupd s v (ar sv wv)) (sum_p := lr) as (s' & Es' & Ls' & Bs' & Fs').
        { rewrite Cn in Lf. cbn [length] in Lf. rewrite !app_length in Lf. lia. }
        { now rewrite zlen_zupd. }
        { now rewrite Rc, Pv. }
        { rewrite Rc. intros y Iy Ny. destruct (Dj y Iy) as (X1 & X2 & X3 & X4). pose proof X4 as X4'. unfold vertex in X4'. rewrite gv_zupd_other by lia. rewrite Fr by auto. apply D0; [|auto]. right. rewrite Cn, !in_app_iff. auto. }
        rewrite Rc, Pv in Es'. rewrite Es'. cbn [bind]. eexists. split; [reflexivity|]. exists (a ++ [(v, w)]), b, (cs1 ++ [c]), cs3. split; [auto|]. split; [auto|]. split; [now rewrite <- app_assoc|]. split; [auto|].
        split; [auto|]. split; [auto|].
        assert (Cs : cnodes (cs1 ++ [c]) = cnodes cs1 ++ nodes c) by (rewrite cnodes_app; cbn [cnodes flat_map]; now rewrite app_nil_r). rewrite Cs.
        assert (V1 : forall x, In x (cnodes cs1) -> vertex g x /\ ~ In x (nodes c)).
        { intros y Iy. rewrite Cn in Nc. apply in_flat_map in Iy as Iy'. destruct Iy' as (d & Id & Iy'). split; [apply (fits_anc g par d); auto; apply Fc; rewrite Ecs; apply in_app_iff; auto|].
          intros I2. apply (NoDup_app_disj _ _ y Nc Iy). apply in_app_iff. auto. }
        split.
        * intros y Iy. apply in_app_iff in Iy as [Iy|Iy].
          -- destruct (V1 y Iy) as (Hy & Ny). pose proof Hy as Hy'. unfold vertex in Hy'. rewrite Fs' by auto. rewrite gv_zupd_other by (try lia; intros ->; contradiction). auto.
          -- destruct (Z.eq_dec y v) as [->|Ny]; [|apply Bs'; auto; now rewrite Rc]. rewrite Fs' by (auto; right; auto). rewrite gv_zupd_same by lia. exists sv, wv. auto.
        * intros y Hy Ny. rewrite in_app_iff in Ny. pose proof Hy as Hy'. unfold vertex in Hy'. rewrite Fs' by auto. rewrite gv_zupd_other by (try lia; intros ->; tauto). auto.
    - rewrite E'. cbn [bind]. exists dp'. split; auto. split; auto.
      assert (Eb : b = []). { destruct b; auto. assert (X : zlen (nb u) = zlen a + zlen (p :: b)) by (rewrite Er at 1; apply zlen_app). rewrite zlen_cons in X. pose proof (zlen_nonneg b). lia. } subst b. rewrite app_nil_r in Er. subst a.
      assert (Ec : cs2 = []). { rewrite Ecs, map_app, M1 in Mc. rewrite <- app_nil_r in Mc. apply app_inv_head in Mc. now destruct cs2. } subst cs2. rewrite app_nil_r in Ecs. subst cs1.
      cbn [nodes]. fold (cnodes cs). split.
      + intros x [<-|Ix] Nx; [contradiction|auto].
      + intros x Hx [Nx|Nx]; apply Fr; auto; [intros I; apply Nx; now right|subst x; auto].
  Qed.
  Lemma run_ok t : fits t -> root t = 0 -> par 0 = -1 -> (forall w, vertex g w -> In w (nodes t)) -> vertex g 0 ->
    exists dp, rr_run op e asr ar gr ws (length g) = Ok dp /\ zlen dp = n /\ forall w, vertex g w -> final w (ga dp w).
  Proof.
    intros F Rt P0 A H0. unfold rr_run. fold (zlen g). pose proof (fits_size g par dep rt R D t F) as Sz. pose proof H0 as H0'. unfold vertex in H0'.
    destruct (dfs1_ok (length g) t F Sz (vrep n e)) as (dp & E & L & B & _). { apply zlen_vrep. lia. }
    { intros w Iw. destruct (fits_anc g par t F w Iw) as (X & _). apply gv_vrep. exact X. }
    rewrite Rt, P0 in E. rewrite E. cbn [bind]. rewrite (vget_gv e) by lia. cbn [bind]. destruct (ws_ok 0 H0) as (w0 & Ew). rewrite Ew. cbn [bind]. rewrite vset_ok by lia. cbn [bind].
    destruct (dfs2_ok (length g) t F Sz (zupd dp 0 (ar (ga dp 0) w0)) e) as (dp' & E' & L' & B' & Fr).
    { now rewrite zlen_zupd. }
    { rewrite Rt. intros X. congruence. }
    { rewrite Rt. intros w Iw Nw. destruct (fits_anc g par t F w Iw) as (X & _). unfold vertex in X. rewrite gv_zupd_other by lia. auto. }
    rewrite Rt, P0 in E'. exists dp'. split; auto. split; auto. intros w Hw. destruct (Z.eq_dec w 0) as [->|Nw].
    - rewrite Fr by auto. rewrite gv_zupd_same by lia. exists (ga dp 0), w0. split; auto. rewrite <- P0. apply B. now rewrite <- Rt; destruct t; left.
    - apply B'; auto. congruence.
  Qed.
End Run.
