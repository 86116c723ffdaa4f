(* Heavy-light decomposition: the first pass *)
From Verif Require Import Base BaseLemmas ListZ ListMore Graph_spec Tree_spec BFS_proof Tree_proof Tree_proof2 HLD_model.
From Coq Require Import Sorted Permutation.

(* entries of vectors *)
Definition gv {A} (d : A) (l : list A) (i : Z) : A := nth (Z.to_nat i) l d.
Lemma vget_gv {A} (d : A) l i : 0 <= i < zlen l -> vget l i = Ok (gv d l i). Proof. apply vget_nth. Qed.
Lemma gv_vget {A} (d : A) l i x : vget l i = Ok x -> gv d l i = x.
Proof. intros E. pose proof (vget_range _ _ _ E). rewrite (vget_gv d) in E by auto. congruence. Qed.
Lemma gv_zupd {A} (d : A) l i x j : 0 <= i < zlen l -> 0 <= j < zlen l -> gv d (zupd l i x) j = if i =? j then x else gv d l j.
Proof.
  intros. apply gv_vget. rewrite vget_zupd by auto. destruct (i =? j); auto. now apply vget_gv.
Qed.
Lemma gv_vrep {A} (d : A) n x i : 0 <= i < n -> gv d (vrep n x) i = x.
Proof. intros. apply gv_vget. now apply vget_vrep. Qed.
Lemma gv_zupd_same {A} (d : A) l i x : 0 <= i < zlen l -> gv d (zupd l i x) i = x.
Proof. intros. rewrite gv_zupd, Z.eqb_refl by auto. auto. Qed.
Lemma gv_zupd_other {A} (d : A) l i x j : 0 <= i < zlen l -> 0 <= j < zlen l -> i <> j -> gv d (zupd l i x) j = gv d l j.
Proof. intros ? ? N. rewrite gv_zupd by auto. now rewrite (proj2 (Z.eqb_neq _ _) N). Qed.

Lemma NoDup_app_disj {A} (a b : list A) x : NoDup (a ++ b) -> In x a -> In x b -> False.
Proof. induction a as [|y a IH]; cbn [app]; intros N Ha Hb; [destruct Ha|]. inversion N; subst. destruct Ha as [->|Ha]; auto. apply H1, in_app_iff. auto. Qed.

(* [subsize g par w s]: s vertices have w as an ancestor *)
Definition subsize (g : list (list Z)) (par : Z -> Z) (w s : Z) : Prop :=
  exists l, NoDup l /\ (forall x, In x l <-> vertex g x /\ ancestor par w x) /\ zlen l = s.
Lemma subsize_fun g par w s s' : subsize g par w s -> subsize g par w s' -> s = s'.
Proof.
  intros (l & N & I & <-) (l' & N' & I' & <-). unfold zlen. f_equal. apply Permutation_length, NoDup_Permutation; auto. intros x. rewrite I, I'. reflexivity.
Qed.

Section Dfs.
  Variables (g0 : list (list Z)) (pf dep rt : Z -> Z).
  Hypothesis R : rooted g0 pf.
  Hypothesis D : dep_ok g0 pf dep rt.
  Notation n := (zlen g0).
  Notation fits := (fits g0 pf).
  Notation size t := (zlen (nodes t)).
  Lemma fits_subsize t : fits t -> subsize g0 pf (root t) (size t).
  Proof. intros F. exists (nodes t). split; [eapply fits_nodup; eauto|]. split; auto. eapply fits_desc; eauto. Qed.
  Definition row (g : list (list Z)) (w : Z) : list Z := gv [] g w.
  Definition dlen (s : dst) : Prop := let '(g, P, Sz, Dp) := s in zlen g = n /\ zlen P = n /\ zlen Sz = n /\ zlen Dp = n.
  (* what a call leaves at a vertex of its subtree *)
  Definition ready (s : dst) (w : Z) : Prop := let '(g, P, Sz, Dp) := s in
    Permutation (row g w) (row g0 w) /\ gv (-1) P w = pf w /\ subsize g0 pf w (gv (-1) Sz w) /\ gv (-1) Dp w = dep w /\
    (forall c, vertex g0 c -> pf c = w -> exists f, vget (row g w) 0 = Ok f /\ vertex g0 f /\ pf f = w /\
       forall a b, subsize g0 pf c a -> subsize g0 pf f b -> a <= b).
  Definition same (s s' : dst) (w : Z) : Prop := let '(g, P, Sz, Dp) := s in let '(g', P', Sz', Dp') := s' in
    row g' w = row g w /\ gv (-1) P' w = gv (-1) P w /\ gv (-1) Sz' w = gv (-1) Sz w /\ gv (-1) Dp' w = gv (-1) Dp w.
  Lemma same_refl s w : same s s w. Proof. destruct s as [[[g P] Sz] Dp]. repeat split. Qed.
  Lemma same_trans s s' s'' w : same s s' w -> same s' s'' w -> same s s'' w.
  Proof. destruct s as [[[g P] Sz] Dp], s' as [[[g' P'] Sz'] Dp'], s'' as [[[g'' P''] Sz''] Dp'']. intros (A & B & C & E) (A' & B' & C' & E'). repeat split; congruence. Qed.
  Lemma same_ready s s' w : same s s' w -> ready s w -> ready s' w.
  Proof.
    destruct s as [[[g P] Sz] Dp], s' as [[[g' P'] Sz'] Dp']. intros (A & B & C & E) H. unfold ready in *. rewrite A, B, C, E. auto.
  Qed.
  Definition fresh (s : dst) (w : Z) : Prop := row (fst (fst (fst s))) w = row g0 w.
  Definition dpv (s : dst) (w : Z) : Z := gv (-1) (snd s) w.
  Definition goal (rec : Z -> Z -> dst -> res (dst * Z)) (t : rose) : Prop :=
    forall s, dlen s -> (forall w, In w (nodes t) -> fresh s w) -> dpv s (root t) = dep (root t) ->
    exists s', rec (root t) (pf (root t)) s = Ok (s', size t) /\ dlen s' /\ (forall w, In w (nodes t) -> ready s' w) /\
      (forall w, vertex g0 w -> ~ In w (nodes t) -> same s s' w).
  Lemma row_vget (g : list (list Z)) w : 0 <= w < zlen g -> vget g w = Ok (row g w). Proof. apply vget_gv. Qed.
  (* the front of the part of the row done so far *)
  Definition frontok (cs : list rose) (pre : list Z) (mx : Z) : Prop :=
    (cs = [] -> mx = 0) /\ (cs <> [] -> exists c q, In c cs /\ pre = root c :: q /\ mx = size c /\ forall d, In d cs -> size d <= mx).
  Definition cnodes (cs : list rose) : list Z := flat_map nodes cs.
  Definition J (u : Z) (cs : list rose) (row0 : list Z) (s0 : dst) (i : Z) (x : dst * Z) : Prop :=
    let '(s, mx) := x in let '(g, P, Sz, Dp) := s in
    exists cs1 cs2 r1 r2 pre, cs = cs1 ++ cs2 /\ row0 = r1 ++ r2 /\ zlen r1 = i /\
      map root cs1 = filter (fun v => negb (v =? pf u)) r1 /\ map root cs2 = filter (fun v => negb (v =? pf u)) r2 /\
      dlen s /\ (forall w, In w (cnodes cs1) -> ready s w) /\
      (forall w, vertex g0 w -> w <> u -> ~ In w (cnodes cs1) -> same s0 s w) /\
      row g u = pre ++ r2 /\ Permutation pre r1 /\ frontok cs1 pre mx /\
      gv (-1) P u = pf u /\ gv (-1) Sz u = 1 + zlen (cnodes cs1) /\ gv (-1) Dp u = dep u.
  Lemma cnodes_app a b : cnodes (a ++ b) = cnodes a ++ cnodes b. Proof. apply flat_map_app. Qed.
  Lemma size_pos t : 1 <= size t. Proof. destruct t. cbn [nodes]. rewrite zlen_cons. unfold zlen. lia. Qed.
  Lemma body_ok rec u cs row0 s0 i x : fits (Rose u cs) -> row g0 u = row0 -> (forall c, In c cs -> goal rec c) ->
    (forall w, In w (cnodes cs) -> fresh s0 w) -> 0 <= i < zlen row0 -> J u cs row0 s0 i x ->
    exists x', dfs_body rec u (pf u) i x = Ok x' /\ J u cs row0 s0 (i + 1) x'.
  Proof.
    intros F Er Rec Fr Hi. destruct x as [[[[g P] Sz] Dp] mx]. intros (cs1 & cs2 & r1 & r2 & pre & Ecs & Erow & Zr1 & M1 & M2 & (Lg & Lp & Ls & Ld) & Rd & Sm & Eu & Pm & Fo & Pu & Su & Du).
    inversion F as [? ? adj Hu Ea Mc Pc Fc]; subst u0 cs0. pose proof Hu as Hu'. unfold vertex in Hu'.
    pose proof (fits_nodup g0 pf dep rt R D _ F) as Nd. cbn [nodes] in Nd. fold (cnodes cs) in Nd. inversion Nd as [|? ? Nu Nc]; subst x l.
    assert (Zp : zlen pre = i) by (unfold zlen in *; rewrite (Permutation_length Pm); auto).
    destruct r2 as [|v r2]; [rewrite Erow, app_nil_r in Hi; lia|].
    unfold dfs_body. rewrite row_vget by lia. cbn [bind]. rewrite Eu. rewrite vget_mid by lia. cbn [bind].
    destruct (Z.eqb_spec v (pf u)) as [Ev|Nv].
    - eexists. split; [reflexivity|]. exists cs1, cs2, (r1 ++ [v]), r2, (pre ++ [v]). rewrite <- !app_assoc. cbn [app].
      assert (FZ : (negb (v =? pf u)) = false) by (rewrite Ev, Z.eqb_refl; auto).
      cbn [filter] in M2. rewrite FZ in M2. rewrite filter_app. cbn [filter]. rewrite FZ, app_nil_r, zlen_app, zlen_one.
      repeat (split; [now auto|]). split; [lia|]. repeat (split; [now auto|]). split; [now apply Permutation_app_tail|]. split; [|auto].
      destruct Fo as (F1 & F2). split; auto. intros N. destruct (F2 N) as (c & q & Ic & -> & Em & Mx). exists c, (q ++ [v]). auto.
    - assert (FZ : (negb (v =? pf u)) = true) by (apply negb_true_iff, Z.eqb_neq; auto). cbn [filter] in M2. rewrite FZ in M2. destruct cs2 as [|c cs2]; [discriminate|]. cbn [map] in M2. injection M2 as Rc M2.
      assert (Ic : In c cs) by (rewrite Ecs; apply in_app_iff; right; now left).
      assert (Fc' := Fc c Ic). assert (Vc : vertex g0 (root c)) by (apply (fits_anc g0 pf c Fc'), root_In). rewrite Rc in Vc. pose proof Vc as Vc'. unfold vertex in Vc'.
      assert (Inc : forall w, In w (nodes c) -> In w (cnodes cs)) by (intros w Hw; apply in_flat_map; exists c; auto).
      assert (Ncu : ~ In u (nodes c)) by (intros I; apply Nu; auto).
      assert (Nvu : v <> u) by (intros ->; apply Ncu; rewrite <- Rc; apply root_In).
      rewrite Ecs, cnodes_app in Nc. cbn [cnodes flat_map] in Nc. fold (cnodes cs2) in Nc.
      assert (Dj : forall w, In w (nodes c) -> ~ In w (cnodes cs1)).
      { intros w Hw Hw1. apply (NoDup_app_disj _ _ w Nc Hw1). apply in_app_iff. now left. }
      rewrite (vget_gv (-1)) by lia. cbn [bind]. rewrite vset_ok by lia. cbn [bind]. rewrite Du.
      destruct (Rec c Ic (g, P, Sz, zupd Dp v (dep u + 1))) as (s' & Es' & Ds' & Rs' & Ss').
      { unfold dlen. rewrite zlen_zupd. auto. }
      { intros w Hw. unfold fresh. cbn [fst]. assert (Vw : vertex g0 w) by now apply (fits_anc g0 pf c Fc'). assert (A : same s0 (g, P, Sz, Dp) w) by (apply Sm; auto; intros ->; auto).
        rewrite <- (Fr w (Inc w Hw)). destruct s0 as [[[g1 P1] S1] D1]. cbn [fst]. apply A. }
      { unfold dpv. cbn [snd]. rewrite Rc, gv_zupd_same by lia. assert (Ev := Pc c Ic). rewrite Rc in Ev. assert (X : pf v <> -1) by lia. pose proof (dep_par g0 pf dep rt D v Vc X). rewrite Ev in H. lia. }
      rewrite Rc in Es'. assert (Ev := Pc c Ic). rewrite Rc in Ev. rewrite Ev in Es'. rewrite Es'. cbn [bind]. destruct s' as [[[g' P'] Sz'] Dp']. destruct Ds' as (Lg' & Lp' & Ls' & Ld').
      destruct (Ss' u Hu Ncu) as (Gu & Pu' & Su' & Du'). rewrite gv_zupd_other in Du' by lia.
      rewrite (vget_gv (-1)) by lia. cbn [bind]. rewrite vset_ok by lia. cbn [bind]. rewrite row_vget by lia. cbn [bind]. rewrite Gu, Eu, vget_mid by lia. cbn [bind].
      rewrite (vget_gv (-1)) by (rewrite zlen_zupd; lia). rewrite gv_zupd_other by lia. cbn [bind].
      assert (Rv : ready (g', P', Sz', Dp') v) by (apply Rs'; rewrite <- Rc; apply root_In).
      assert (Sv : gv (-1) Sz' v = size c). { destruct Rv as (_ & _ & Sv & _). eapply subsize_fun; [exact Sv|]. rewrite <- Rc. now apply fits_subsize. }
      rewrite Sv, Su', Su.
      assert (Same1 : forall w, vertex g0 w -> w <> u -> ~ In w (nodes c) -> same (g, P, Sz, Dp) (g', P', zupd Sz' u (1 + zlen (cnodes cs1) + size c), Dp') w).
      { intros w Hw Nw Nc'. destruct (Ss' w Hw Nc') as (A & B & C & E). unfold vertex in Hw. rewrite gv_zupd_other in E; [|lia|lia|intros ->; apply Nc'; rewrite <- Rc; apply root_In]. repeat split; auto. rewrite gv_zupd_other by lia. auto. }
      assert (Com : forall g'' pre' mx', (forall w, vertex g0 w -> w <> u -> row g'' w = row g' w) -> zlen g'' = n -> row g'' u = pre' ++ r2 -> Permutation pre' (r1 ++ [v]) -> frontok (cs1 ++ [c]) pre' mx' ->
        J u cs row0 s0 (i + 1) ((g'', P', zupd Sz' u (1 + zlen (cnodes cs1) + size c), Dp'), mx')).
      { intros g'' pre' mx' Gr Lg'' Ru Pm' Fo'. exists (cs1 ++ [c]), cs2, (r1 ++ [v]), r2, pre'. rewrite <- !app_assoc. cbn [app].
        assert (Sg : forall w, vertex g0 w -> w <> u -> same (g', P', zupd Sz' u (1 + zlen (cnodes cs1) + size c), Dp') (g'', P', zupd Sz' u (1 + zlen (cnodes cs1) + size c), Dp') w) by (intros w Hw Nw; repeat split; auto).
        repeat (split; [now auto|]). split; [rewrite zlen_app, zlen_one; lia|]. split; [rewrite map_app, filter_app, M1; cbn [map filter]; rewrite FZ, Rc; auto|]. split; [auto|].
        split; [unfold dlen; rewrite zlen_zupd; auto|]. split; [|split; [|split; [auto|split; [auto|split; [auto|split; [congruence|split; [|congruence]]]]]]].
        - intros w Hw. rewrite cnodes_app in Hw. cbn [cnodes flat_map] in Hw. rewrite app_nil_r in Hw.
          assert (Vw : vertex g0 w /\ w <> u). { apply in_app_iff in Hw as [Hw|Hw].
            - split; [|intros ->; apply Nu; rewrite Ecs, cnodes_app; apply in_app_iff; auto]. apply in_flat_map in Hw as (d & Id & Hw). apply (fits_anc g0 pf d); auto. apply Fc. rewrite Ecs. apply in_app_iff. auto.
            - split; [now apply (fits_anc g0 pf c Fc')|intros ->; auto]. }
          destruct Vw as (Vw & Nw). eapply same_ready; [now apply Sg|]. destruct (in_dec Z.eq_dec w (nodes c)) as [I|I].
          + eapply same_ready; [|apply Rs'; exact I]. unfold vertex in Vw. repeat split; auto. rewrite gv_zupd_other by lia. auto.
          + eapply same_ready; [apply Same1; auto|]. apply Rd. apply in_app_iff in Hw as [Hw|Hw]; auto. contradiction.
        - intros w Hw Nw Nc'. rewrite cnodes_app in Nc'. cbn [cnodes flat_map] in Nc'. rewrite app_nil_r, in_app_iff in Nc'. eapply same_trans; [apply Sm; auto|]. eapply same_trans; [apply Same1; auto|]. now apply Sg.
        - rewrite gv_zupd_same by lia. rewrite cnodes_app, zlen_app. cbn [cnodes flat_map]. rewrite app_nil_r. lia. }
      destruct (Z.ltb_spec mx (size c)) as [Lt|Ge].
      + assert (Zrow : zlen (pre ++ v :: r2) = i + 1 + zlen r2) by (rewrite zlen_app, zlen_cons; lia). pose proof (Zle_0_nat (length r2)) as Zr2. fold (zlen r2) in Zr2.
        destruct pre as [|f pre].
        * assert (i = 0) by (unfold zlen in Zp; cbn in Zp; lia). subst i. cbn [app]. assert (V0 : vget (v :: r2) 0 = Ok v) by reflexivity. rewrite V0. cbn [bind].
          rewrite vset_ok by (cbn [app] in Zrow; lia). cbn [bind]. rewrite H. assert (U0 : zupd (v :: r2) 0 v = v :: r2) by reflexivity. rewrite U0. rewrite vset_ok by (cbn [app] in Zrow; lia). cbn [bind]. rewrite U0.
          rewrite vset_ok by lia. cbn [bind]. eexists. split; [reflexivity|]. rewrite <- H. apply (Com _ [v]).
          -- intros w Hw Nw. unfold vertex in Hw. unfold row. rewrite gv_zupd_other by lia. auto.
          -- now rewrite zlen_zupd.
          -- unfold row. rewrite gv_zupd_same by lia. auto.
          -- assert (r1 = []) as -> by (apply Permutation_nil; auto). auto.
          -- assert (C1 : cs1 = []). { assert (r1 = []) as -> by (apply Permutation_nil; auto). destruct cs1; auto. discriminate. } subst cs1. split; [discriminate|]. intros _. exists c, []. cbn [app]. split; [now left|]. rewrite Rc. split; auto. split; auto. intros d [<-|[]]. lia.
        * cbn [app]. assert (V0 : vget (f :: pre ++ v :: r2) 0 = Ok f) by reflexivity. rewrite V0. cbn [bind]. cbn [app] in Zrow. rewrite vset_ok by lia. cbn [bind].
          assert (U0 : zupd (f :: pre ++ v :: r2) 0 v = (v :: pre) ++ v :: r2) by reflexivity. rewrite U0. rewrite vset_ok by (rewrite zlen_app, !zlen_cons in *; lia). cbn [bind].
          assert (U1 : zupd ((v :: pre) ++ v :: r2) i f = (v :: pre) ++ f :: r2).
          { unfold zupd. replace (Z.to_nat i) with (length (v :: pre)) by (unfold zlen in Zp; cbn [length] in *; lia). generalize (v :: pre). clear. induction l as [|y l IH]; cbn [app length upd]; congruence. }
          rewrite U1, vset_ok by lia. cbn [bind]. eexists. split; [reflexivity|]. apply (Com _ ((v :: pre) ++ [f])).
          -- intros w Hw Nw. unfold vertex in Hw. unfold row. rewrite gv_zupd_other by lia. auto.
          -- now rewrite zlen_zupd.
          -- unfold row. rewrite gv_zupd_same by lia. rewrite <- app_assoc. auto.
          -- rewrite <- Pm. cbn [app]. transitivity (v :: f :: pre); [constructor; now rewrite Permutation_app_comm|]. change (f :: pre ++ [v]) with ((f :: pre) ++ [v]). rewrite (Permutation_app_comm (f :: pre)). auto.
          -- split; [intros E; now apply app_eq_nil in E as (_ & ?)|]. intros _. exists c, (pre ++ [f]). split; [apply in_app_iff; right; now left|]. rewrite Rc. split; auto. split; auto.
             intros d Hd. apply in_app_iff in Hd as [Hd|[<-|[]]]; [|lia]. destruct Fo as (_ & F2). destruct F2 as (c' & q & _ & _ & _ & Mx); [intros ->; destruct Hd|]. specialize (Mx d Hd). lia.
      + eexists. split; [reflexivity|]. apply (Com g' (pre ++ [v])); auto.
        * rewrite <- app_assoc. cbn [app]. rewrite Gu. auto.
        * now apply Permutation_app_tail.
        * split; [intros E; now apply app_eq_nil in E as (_ & ?)|]. intros _. destruct Fo as (F1 & F2). pose proof (size_pos c). destruct F2 as (c' & q & Ic' & -> & Em & Mx); [intros E; rewrite F1 in Ge by auto; lia|].
          exists c', (q ++ [v]). split; [apply in_app_iff; auto|]. split; auto. split; auto. intros d Hd. apply in_app_iff in Hd as [Hd|[<-|[]]]; auto.
  Qed.
  Lemma dfs_goal fuel : forall t, fits t -> (length (nodes t) <= fuel)%nat -> goal (dfs fuel) t.
  Proof.
    induction fuel as [|fuel IH]; intros t F Lf; [destruct t; cbn in Lf; lia|].
    destruct t as [u cs]. intros s Lg Fr Du. cbn [root] in *. destruct s as [[[g P] Sz] Dp]. destruct Lg as (Lg & Lp & Ls & Ld). unfold dpv in Du. cbn [snd] in Du.
    inversion F as [? ? adj Hu Ea Mc Pc Fc]; subst u0 cs0. pose proof Hu as Hu'. unfold vertex in Hu'.
    pose proof (fits_nodup g0 pf dep rt R D _ F) as Nd. cbn [nodes] in Nd. fold (cnodes cs) in Nd. inversion Nd as [|? ? Nu Nc]; subst x l.
    assert (Er : row g0 u = adj) by (now apply gv_vget).
    assert (Eu : row g u = adj) by (rewrite <- Er; apply (Fr u); cbn; auto).
    cbn [dfs]. rewrite !vset_ok by lia. cbn [bind]. rewrite row_vget by lia. cbn [bind]. rewrite Eu.
    set (s0 := (g, zupd P u (pf u), zupd Sz u 1, Dp)).
    destruct (for_inv (J u cs adj s0) 0 (zlen adj) (dfs_body (dfs fuel) u (pf u)) (s0, 0)) as (x & Ex & Jx).
    - unfold zlen; lia.
    - exists [], cs, [], adj, []. cbn [app cnodes flat_map map filter]. fold s0. repeat (split; [now auto|]). split; [unfold dlen, s0; rewrite !zlen_zupd; auto|]. split; [intros w []|]. split; [intros w Hw Nw _; apply same_refl|].
      split; [auto|]. split; [auto|]. split; [split; [auto|congruence]|]. rewrite !gv_zupd_same by lia. auto.
    - intros i x Hi Jx. apply body_ok; auto.
      + intros c Hc. apply IH; auto. cbn [nodes] in Lf. cbn [length] in Lf. apply in_split in Hc as (a & b & ->). rewrite flat_map_app, app_length in Lf. cbn [flat_map] in Lf. rewrite app_length in Lf. lia.
      + intros w Hw. apply (Fr w). cbn [nodes]. right. exact Hw.
    - rewrite Ex. cbn [bind]. destruct x as [[[[g' P'] Sz'] Dp'] mx]. destruct Jx as (cs1 & cs2 & r1 & r2 & pre & Ecs & Erow & Zr1 & M1 & M2 & Dl & Rd & Sm & Eu' & Pm & Fo & Pu & Su & Du').
      assert (r2 = []) as ->. { rewrite Erow, zlen_app in Zr1. destruct r2; auto. rewrite zlen_cons in Zr1. unfold zlen in Zr1. lia. }
      destruct cs2; [|discriminate]. rewrite app_nil_r in *. subst cs1 r1. pose proof Dl as (Lg' & Lp' & Ls' & Ld'). rewrite (vget_gv (-1)) by lia. cbn [bind]. rewrite Su.
      eexists. split; [cbn [nodes]; rewrite zlen_cons; fold (cnodes cs); rewrite Z.add_comm; reflexivity|]. split; [auto|]. split.
      + intros w [<-|Hw]; [|now apply Rd]. unfold ready. rewrite Eu', Er, Pu, Su, Du'. split; [auto|]. split; [auto|]. split; [|split; [auto|]].
        * pose proof (fits_subsize _ F) as X. cbn [nodes root] in X. rewrite zlen_cons in X. fold (cnodes cs) in X. rewrite Z.add_comm. auto.
        * intros c Vc Ec. assert (Ic : In c (map root cs)) by (rewrite Mc; apply (row_kids g0 pf dep rt R D); auto). apply in_map_iff in Ic as (tc & <- & Ic).
          destruct Fo as (_ & F2). destruct F2 as (m & q & Im & -> & Em & Mx); [intros ->; destruct Ic|]. exists (root m). split; [reflexivity|].
          split; [apply (fits_anc g0 pf m); [now apply Fc|apply root_In]|]. split; [now apply Pc|]. intros a b Ha Hb.
          rewrite (subsize_fun _ _ _ _ _ Ha (fits_subsize tc (Fc tc Ic))), (subsize_fun _ _ _ _ _ Hb (fits_subsize m (Fc m Im))). rewrite <- Em. now apply Mx.
      + intros w Hw Nw. cbn [nodes] in Nw. assert (Nwu : w <> u) by (intros ->; apply Nw; now left). eapply same_trans; [|apply Sm; auto; intros I; apply Nw; now right].
        unfold vertex in Hw. unfold s0. repeat split; rewrite gv_zupd_other by lia; auto.
  Qed.
End Dfs.
