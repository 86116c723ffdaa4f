(* Heavy-light decomposition: the second pass *)
From Verif Require Import Base BaseLemmas ListZ ListMore Graph_spec Tree_spec BFS_proof Tree_proof Tree_proof2 HLD_model HLD_proof.
From Coq Require Import Sorted Permutation.

Section Second.
  Variables (g : list (list Z)) (pf dep rt : Z -> Z).
  Hypothesis R : rooted g pf.
  Hypothesis D : dep_ok g pf dep rt.
  Notation n := (zlen g).
  Notation fits := (fits g pf).
  Notation size t := (zlen (nodes t)).
  Notation ga := (gv (-1)).
  Definition hlen (s : hst) : Prop := let '(V, L, H, Od, _) := s in zlen V = n /\ zlen L = n /\ zlen H = n /\ zlen Od = n.
  Definition front (w : Z) : Prop := pf w <> -1 /\ vget (row g (pf w)) 0 = Ok w.
  Definition placed (s : hst) (lo hi w : Z) : Prop := let '(V, L, H, Od, _) := s in
    exists t, fits t /\ root t = w /\ lo <= ga V w /\ ga V w + size t <= hi /\ ga L w = ga V w + size t /\
      (forall i, 0 <= i < size t -> ga Od (ga V w + i) = ga (nodes t) i) /\
      ((front w /\ ga H w = ga H (pf w) /\ ga V w = ga V (pf w) + 1) \/ (~ front w /\ ga H w = w)).
  Definition hsame (s s' : hst) (w : Z) : Prop := let '(V, L, H, Od, _) := s in let '(V', L', H', Od', _) := s' in
    ga V' w = ga V w /\ ga L' w = ga L w /\ ga H' w = ga H w.
  Definition osame (s s' : hst) (k : Z) : Prop := let '(V, L, H, Od, _) := s in let '(V', L', H', Od', _) := s' in ga Od' k = ga Od k.
  Definition time_ (s : hst) : Z := snd s.
  Definition goal2 (rec : Z -> Z -> hst -> res hst) (t : rose) : Prop :=
    forall s, hlen s -> 0 <= time_ s -> time_ s + size t <= n ->
    (front (root t) -> time_ s = ga (fst (fst (fst (fst s)))) (pf (root t)) + 1) ->
    exists s', rec (root t) (pf (root t)) s = Ok s' /\ hlen s' /\ time_ s' = time_ s + size t /\
      (forall w, vertex g w -> ~ In w (nodes t) -> hsame s s' w) /\
      (forall k, 0 <= k < n -> ~ (time_ s <= k < time_ s') -> osame s s' k) /\
      (forall w, In w (nodes t) -> placed s' (time_ s) (time_ s') w) /\
      (let '(V, L, H, Od, _) := s' in forall i, 0 <= i < size t -> ga Od (time_ s + i) = ga (nodes t) i /\ ga V (ga (nodes t) i) = time_ s + i).
  Lemma hsame_refl s w : hsame s s w. Proof. destruct s as [[[[V L] H] Od] t]. repeat split. Qed.
  Lemma hsame_trans s s' s'' w : hsame s s' w -> hsame s' s'' w -> hsame s s'' w.
  Proof. destruct s as [[[[V L] H] Od] t], s' as [[[[V' L'] H'] Od'] t'], s'' as [[[[V'' L''] H''] Od''] t'']. intros (A & B & C) (A' & B' & C'). repeat split; congruence. Qed.
  Lemma osame_refl s w : osame s s w. Proof. destruct s as [[[[V L] H] Od] t]. repeat split. Qed.
  Lemma osame_trans s s' s'' w : osame s s' w -> osame s' s'' w -> osame s s'' w.
  Proof. destruct s as [[[[V L] H] Od] t], s' as [[[[V' L'] H'] Od'] t'], s'' as [[[[V'' L''] H''] Od''] t'']. cbn. congruence. Qed.
  Lemma placed_same s s' lo hi w : hsame s s' w -> (pf w <> -1 -> hsame s s' (pf w)) -> (forall k, lo <= k < hi -> osame s s' k) -> placed s lo hi w -> placed s' lo hi w.
  Proof.
    destruct s as [[[[V L] H] Od] t], s' as [[[[V' L'] H'] Od'] t']. intros (A & B & C) P K (tr & Ft & Rt & B1 & B2 & El & Eo & Hd).
    exists tr. rewrite A, B, C. repeat (split; [now auto|]). split.
    - intros i Hi. rewrite <- Eo by auto. apply K. lia.
    - destruct Hd as [(Fw & Eh & Ev)|Hd]; [left|now right]. split; [auto|]. destruct (P (proj1 Fw)) as (-> & _ & ->). auto.
  Qed.
  Lemma placed_widen s lo hi lo' hi' w : lo' <= lo -> hi <= hi' -> placed s lo hi w -> placed s lo' hi' w.
  Proof. destruct s as [[[[V L] H] Od] t]. intros A B (tr & Ft & Rt & B1 & B2 & H3). exists tr. split; [exact Ft|]. split; [exact Rt|]. split; [lia|]. split; [lia|]. exact H3. Qed.
  Lemma size_nonneg {A} (l : list A) : 0 <= zlen l. Proof. unfold zlen. lia. Qed.
  Lemma ga_app1 (a b : list Z) i : 0 <= i < zlen a -> ga (a ++ b) i = ga a i.
  Proof. intros. apply gv_vget. rewrite vget_app1 by lia. now apply vget_gv. Qed.
  Lemma ga_app2 (a b : list Z) i : zlen a <= i < zlen a + zlen b -> ga (a ++ b) i = ga b (i - zlen a).
  Proof. intros. apply gv_vget. rewrite vget_app2 by (rewrite ?zlen_app; lia). apply vget_gv. lia. Qed.
  Lemma ga_In (l : list Z) i : 0 <= i < zlen l -> In (ga l i) l.
  Proof. intros H. eapply vget_In. now apply vget_gv. Qed.
  Lemma ga_cons x (l : list Z) i : 1 <= i <= zlen l -> ga (x :: l) i = ga l (i - 1).
  Proof. intros H. change (x :: l) with ([x] ++ l). rewrite ga_app2 by (rewrite zlen_one; lia). now rewrite zlen_one. Qed.

  Definition J2 (u : Z) (cs : list rose) (s0 : hst) (r1 : list Z) (s : hst) : Prop :=
    exists cs1 cs2, cs = cs1 ++ cs2 /\ map root cs1 = filter (fun v => negb (v =? pf u)) r1 /\
      hlen s /\ time_ s = time_ s0 + zlen (cnodes cs1) /\
      (forall w, vertex g w -> ~ In w (cnodes cs1) -> hsame s0 s w) /\
      (forall k, 0 <= k < n -> ~ (time_ s0 <= k < time_ s) -> osame s0 s k) /\
      (forall w, In w (cnodes cs1) -> placed s (time_ s0) (time_ s) w) /\
      (let '(V, L, H, Od, _) := s in forall i, 0 <= i < zlen (cnodes cs1) -> ga Od (time_ s0 + i) = ga (cnodes cs1) i /\ ga V (ga (cnodes cs1) i) = time_ s0 + i).
  Lemma hld_goal fuel : forall t, fits t -> (length (nodes t) <= fuel)%nat -> goal2 (hld_rec fuel g) t.
  Proof.
    induction fuel as [|fuel IH]; intros t F Lf; [destruct t; cbn in Lf; lia|].
    destruct t as [u cs]. intros s Hl T0 Tn Fr. cbn [root] in *. destruct s as [[[[V L] H] Od] time]. destruct Hl as (Lv & Ll & Lh & Lo). cbn [time_ snd fst] in *.
    inversion F as [? ? adj Hu Ea Mc Pc Fc]; subst u0 cs0. pose proof Hu as Hu'. unfold vertex in Hu'.
    pose proof (fits_nodup g pf dep rt R D _ F) as Nd. cbn [nodes] in Nd. fold (cnodes cs) in Nd. inversion Nd as [|? ? Nu Nc]; subst x l.
    cbn [nodes] in Tn, Lf. fold (cnodes cs) in Tn, Lf. rewrite zlen_cons in Tn. pose proof (size_nonneg (cnodes cs)) as Zc.
    assert (Vc : forall w, In w (cnodes cs) -> vertex g w). { intros w Hw. apply in_flat_map in Hw as (c & Ic & Hw). apply (fits_anc g pf c); auto. }
    cbn [hld_rec]. rewrite !vset_ok by lia. cbn [bind].
    assert (Pu : pf u = -1 \/ (vertex g (pf u) /\ pf u <> u)).
    { destruct (proj1 R u Hu) as [E|Vp]; [now left|right]. split; auto. apply (par_neq g pf dep rt D u Hu). }
    assert (Fb : exists b : bool, (if 0 <=? pf u then let* row := vget g (pf u) in let* f := vget row 0 in Ok (f =? u) else Ok false) = Ok b /\ (b = true <-> front u)).
    { destruct Pu as [E|(Vp & Np)].
      - rewrite E. exists false. split; auto. split; [discriminate|]. intros (X & _). contradiction.
      - unfold vertex in Vp. destruct (Z.leb_spec 0 (pf u)); [|lia]. rewrite row_vget by auto. cbn [bind].
        destruct (row_ok g pf R (pf u) Vp) as (ar & Er & _ & I). assert (In u ar) by (apply I; auto). assert (row g (pf u) = ar) by now apply gv_vget.
        destruct ar as [|f ar]; [destruct H1|]. unfold front. rewrite H2. assert (V0 : vget (f :: ar) 0 = Ok f) by reflexivity. rewrite V0. cbn [bind]. exists (f =? u). split; auto. rewrite Z.eqb_eq. split; [intros ->; split; auto; lia|]. intros (_ & E). congruence. }
    destruct Fb as (b & -> & Hb). cbn [bind].
    assert (Hh : exists h, (if b then vget H (pf u) else Ok u) = Ok h /\ ((b = true /\ h = ga H (pf u)) \/ (b = false /\ h = u))).
    { destruct b; [|exists u; auto]. destruct Hb as (Hb & _). destruct (Hb eq_refl) as (X & _). destruct Pu as [E|(Vp & _)]; [contradiction|]. unfold vertex in Vp. exists (ga H (pf u)). split; auto. apply vget_gv. lia. }
    destruct Hh as (h & -> & Hh). cbn [bind]. rewrite vset_ok by lia. cbn [bind]. rewrite Ea. cbn [bind].
    set (s0 := (zupd V u time, L, zupd H u h, zupd Od time u, time + 1)).
    assert (Lh0 : hlen s0) by (unfold hlen, s0; rewrite !zlen_zupd; auto).
    assert (Ts0 : time_ s0 = time + 1) by reflexivity.
    destruct (for_each_inv (J2 u cs s0) adj (fun v s => if v =? pf u then Ok s else hld_rec fuel g v u s) s0) as (s & Es & Js).
    - exists [], cs. cbn [app map filter cnodes flat_map]. split; [auto|]. split; [auto|]. split; [auto|]. split; [unfold zlen; cbn; lia|].
      split; [intros; apply hsame_refl|]. split; [intros; apply osame_refl|]. split; [intros w []|]. unfold s0. intros i Hi. unfold zlen in Hi. cbn in Hi. lia.
    - intros r1 v r2 s Er (cs1 & cs2 & Ecs & M1 & Hl & Tm & Hs & Ho & Pl & Seg).
      assert (M2 : map root cs2 = filter (fun v => negb (v =? pf u)) (v :: r2)). { rewrite Er, filter_app, Ecs, map_app, M1 in Mc. now apply app_inv_head in Mc. }
      cbn [filter] in M2. destruct (Z.eqb_spec v (pf u)) as [Ev|Nv]; cbn [negb] in M2.
      + exists s. split; auto. exists cs1, cs2. split; [auto|]. split; [rewrite filter_app; cbn [filter]; rewrite Ev, Z.eqb_refl, app_nil_r; auto|]. auto 10.
      + destruct cs2 as [|c cs2]; [discriminate|]. cbn [map] in M2. injection M2 as Rc M2. assert (Ic : In c cs) by (rewrite Ecs; apply in_app_iff; right; now left).
        assert (Fc' := Fc c Ic). assert (Ev : pf v = u) by (rewrite <- Rc; now apply Pc).
        assert (Cn : cnodes cs = cnodes cs1 ++ nodes c ++ cnodes cs2) by (rewrite Ecs; apply cnodes_app).
        assert (Ls : (length (cnodes cs) = length (cnodes cs1) + (length (nodes c) + length (cnodes cs2)))%nat) by (rewrite Cn, !app_length; auto).
        assert (Inc : forall w, In w (nodes c) -> In w (cnodes cs)) by (intros w Hw; rewrite Cn, !in_app_iff; auto).
        assert (In1 : forall w, In w (cnodes cs1) -> In w (cnodes cs)) by (intros w Hw; rewrite Cn, !in_app_iff; auto).
        assert (Dj : forall w, In w (cnodes cs1) -> ~ In w (nodes c)) by (intros w H1 H2; rewrite Cn in Nc; apply (NoDup_app_disj _ _ w Nc H1), in_app_iff; auto).
        assert (Hsu : hsame s0 s u) by (apply Hs; auto).
        destruct (IH c Fc' ltac:(cbn [length] in Lf; lia) s Hl) as (s' & Es' & Hl' & Tm' & Hs' & Ho' & Pl' & Seg').
        { rewrite Tm, Ts0. pose proof (size_nonneg (cnodes cs1)). lia. }
        { rewrite Tm, Ts0. unfold zlen in *. lia. }
        { rewrite Rc, Ev. intros (_ & Fv). rewrite Ev in Fv. assert (row g u = adj) by now apply gv_vget. rewrite H0 in Fv. destruct r1 as [|x r1].
          - cbn [filter map] in M1. destruct cs1; [|discriminate]. rewrite Tm. cbn [cnodes flat_map zlen]. rewrite Ts0. destruct s as [[[[V1 L1] H1] O1] t1]. cbn [fst]. destruct Hsu as (-> & _). rewrite gv_zupd_same by lia. unfold zlen. cbn. lia.
          - exfalso. rewrite Er in Fv. cbn [app] in Fv. assert (X0 : vget (x :: r1 ++ v :: r2) 0 = Ok x) by reflexivity. assert (x = v) by congruence. subst x. assert (Nr := row_nodup g pf R u adj Hu Ea). rewrite Er in Nr. inversion Nr; subst. apply H3, in_app_iff. right. now left. }
        rewrite Rc, Ev in Es'. exists s'. split; auto. exists (cs1 ++ [c]), cs2. rewrite <- app_assoc. cbn [app]. split; [auto|]. split; [rewrite map_app, filter_app, M1; cbn [map filter]; rewrite (proj2 (Z.eqb_neq _ _) Nv), Rc; auto|].
        assert (Cs : cnodes (cs1 ++ [c]) = cnodes cs1 ++ nodes c) by (rewrite cnodes_app; cbn [cnodes flat_map]; now rewrite app_nil_r). rewrite Cs.
        split; [auto|]. split; [rewrite zlen_app; lia|]. pose proof (size_nonneg (cnodes cs1)) as Z1. pose proof (size_nonneg (nodes c)) as Z2.
        split; [|split; [|split]].
        * intros w Hw N. rewrite in_app_iff in N. eapply hsame_trans; [apply Hs|apply Hs']; auto.
        * intros k Hk N. eapply osame_trans; [apply Ho|apply Ho']; auto; lia.
        * intros w Hw. apply in_app_iff in Hw as [Hw|Hw].
          -- apply placed_widen with (lo := time_ s0) (hi := time_ s); try lia. eapply placed_same; [| | |apply Pl; auto].
             ++ apply Hs'; auto.
             ++ intros Np. apply Hs'; [apply (par_vertex g pf R); auto|]. apply in_flat_map in Hw as (d & Id & Hw). assert (Fd : fits d) by (apply Fc; rewrite Ecs; apply in_app_iff; auto).
                destruct (fits_anc g pf d Fd w Hw) as (Vw & A). apply anc_inv in A as [A|(_ & A)].
                ** rewrite <- A, Pc by (rewrite Ecs; apply in_app_iff; auto). intros I. apply Nu. auto.
                ** apply Dj. apply in_flat_map. exists d. split; auto. apply (fits_desc g pf dep rt R D d Fd). split; auto. now apply (par_vertex g pf R).
             ++ intros k Hk. apply Ho'; [unfold zlen in *; lia|lia].
          -- apply placed_widen with (lo := time_ s) (hi := time_ s'); try lia. now apply Pl'.
        * destruct s' as [[[[V2 L2] H2] O2] t2]. destruct s as [[[[V1 L1] H1] O1] t1]. intros i Hi. rewrite zlen_app in Hi. destruct (Z.lt_ge_cases i (zlen (cnodes cs1))) as [Li|Li].
          -- rewrite ga_app1 by lia. destruct (Seg i ltac:(lia)) as (A & B). assert (Iw := ga_In (cnodes cs1) i ltac:(lia)). split.
             ++ rewrite <- A. apply (Ho' (time_ s0 + i)); [unfold zlen in *; lia|]. lia.
             ++ rewrite <- B. apply (Hs' (ga (cnodes cs1) i)); auto.
          -- rewrite ga_app2 by lia. destruct (Seg' (i - zlen (cnodes cs1)) ltac:(lia)) as (A & B). rewrite Tm in A, B. replace (time_ s0 + zlen (cnodes cs1) + (i - zlen (cnodes cs1))) with (time_ s0 + i) in A, B by lia. auto.
    - rewrite Es. cbn [bind]. destruct Js as (cs1 & cs2 & Ecs & M1 & Hl & Tm & Hs & Ho & Pl & Seg).
      assert (cs2 = []) as ->. { rewrite Ecs, map_app, M1 in Mc. rewrite <- (app_nil_r (filter _ adj)) in Mc at 2. apply app_inv_head in Mc. now destruct cs2. }
      rewrite app_nil_r in Ecs. subst cs1. destruct s as [[[[V1 L1] H1] O1] t1]. pose proof Hl as (Lv1 & Ll1 & Lh1 & Lo1). rewrite vset_ok by lia. cbn [bind]. cbn [time_ snd] in *. rewrite Ts0 in *.
      eexists. split; [reflexivity|]. split; [unfold hlen; rewrite zlen_zupd; auto|]. cbn [time_ snd nodes]. fold (cnodes cs). rewrite zlen_cons.
      split; [lia|].
      destruct (Hs u Hu Nu) as (Vu & _ & Hu1). rewrite gv_zupd_same in Vu by lia. rewrite gv_zupd_same in Hu1 by lia.
      assert (Nup : pf u <> -1 -> vertex g (pf u) /\ pf u <> u /\ ~ In (pf u) (cnodes cs)).
      { intros X. destruct Pu as [E|(Vp & Np)]; [contradiction|]. split; auto. split; auto. intros I.
        assert (In (pf u) (nodes (Rose u cs))) as I2 by (right; auto). apply (fits_desc g pf dep rt R D _ F) in I2 as (_ & A). cbn [root] in A. pose proof (anc_dep g pf dep rt R D _ _ A Vp). pose proof (dep_par g pf dep rt D u Hu X). lia. }
      assert (Ou : ga O1 time = u). { specialize (Ho time ltac:(lia)). cbn [osame s0] in Ho. rewrite Ho by lia. rewrite gv_zupd_same by lia. auto. }
      split; [|split; [|split]].
      + intros w Hw N. assert (w <> u) by (intros ->; apply N; now left). destruct (Hs w Hw) as (A & B & C); [intros I; apply N; now right|].
        unfold vertex in Hw. rewrite gv_zupd_other in A, C by lia. repeat split; auto. rewrite gv_zupd_other by lia. auto.
      + intros k Hk N. specialize (Ho k Hk ltac:(lia)). cbn [osame s0] in *. rewrite Ho. rewrite gv_zupd_other by lia. auto.
      + intros w [<-|Hw].
        * exists (Rose u cs). cbn [root nodes]. fold (cnodes cs). rewrite zlen_cons, Vu, Hu1. split; [auto|]. split; [auto|]. split; [lia|]. split; [lia|]. split; [rewrite gv_zupd_same by lia; lia|]. split.
          -- intros i Hi. destruct (Z.eq_dec i 0) as [->|Ni]; [rewrite Z.add_0_r; exact Ou|]. rewrite ga_cons by lia. destruct (Seg (i - 1) ltac:(lia)) as (A & _). rewrite <- A. f_equal. lia.
          -- destruct Hh as [(-> & ->)|(-> & ->)].
             ++ left. assert (Fu : front u) by now apply Hb. split; auto. destruct (Nup (proj1 Fu)) as (Vp & Np & Nip). destruct (Hs (pf u) Vp Nip) as (A & _ & C). unfold vertex in Vp. rewrite gv_zupd_other in A, C by lia.
                split; [auto|]. rewrite A. now apply Fr.
             ++ right. split; auto. intros X. apply Hb in X. discriminate.
        * assert (P1 : placed (V1, zupd L1 u t1, H1, O1, t1) (time + 1) t1 w).
          { destruct (Pl w Hw) as (tw & Ft & Rt & B1 & B2 & El & Eo & Hd). exists tw. assert (Nwu : u <> w) by (intros ->; auto). pose proof (Vc w Hw) as Vw. unfold vertex in Vw. rewrite gv_zupd_other by lia. auto 10. }
          eapply placed_widen; [| |exact P1]; lia.
      + intros i Hi. destruct (Z.eq_dec i 0) as [->|Ni]; [rewrite Z.add_0_r; split; [exact Ou|exact Vu]|]. rewrite ga_cons by lia. destruct (Seg (i - 1) ltac:(lia)) as (A & B). replace (time + 1 + (i - 1)) with (time + i) in A, B by lia. auto.
  Qed.
End Second.
