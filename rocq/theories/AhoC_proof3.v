(* Proofs about AhoC_model: the automaton over an array trie. *)
From Verif Require Import Base BaseLemmas ListZ Seq ListMore NumTheory AhoC_spec AhoC_model AhoC_proof.

Section P.
  Variables al off : Z.
  Hypothesis HA : 0 <= al.
  Notation ck i := (0 <= i < al).
  Record atrie (nodes : list an) (n : Z) (sig : Z -> list Z) (G : Z -> an) (r : Z -> Z -> Z) : Prop := {
    a_tri : tri n sig; a_rep : rep nodes n G;
    a_row : forall v, 0 <= v < n -> rep (n_row (G v)) al (r v);
    a_ch : forall v i, 0 <= v < n -> ck i -> r v i = -1 \/ 0 <= r v i < n /\ sig (r v i) = sig v ++ [i + off];
    a_in : forall v w i, 0 <= v < n -> 0 <= w < n -> ck i -> sig w = sig v ++ [i + off] -> r v i = w;
    a_al : forall w s c, 0 <= w < n -> sig w = s ++ [c] -> ck (c - off) }.
  Lemma atrie_start : atrie [an_new al] 1 (fun _ => []) (fun _ => an_new al) (fun _ _ => -1).
  Proof.
    split.
    - split; [lia|auto|intros v w Hv Hw _; lia|intros w Hw; lia].
    - split; [reflexivity|]. intros i Hi. replace i with 0 by lia. reflexivity.
    - intros v _. apply rep_vrep; auto.
    - auto.
    - intros v w i _ _ _ E. discriminate.
    - intros w s c _ E. destruct s; discriminate.
  Qed.
  Lemma atrie_grow nodes n sig G r v c : atrie nodes n sig G r -> 0 <= v < n -> ck c -> r v c = -1 ->
    atrie (zupd nodes v (set_row (G v) (zupd (n_row (G v)) c n)) ++ [an_new al]) (n + 1) (fupd sig n (sig v ++ [c + off]))
      (fupd (fupd G v (set_row (G v) (zupd (n_row (G v)) c n))) n (an_new al)) (fupd (fupd r v (fupd (r v) c n)) n (fun _ => -1)).
  Proof.
    intros T Hv Hc F. pose proof (a_rep _ _ _ _ _ T) as R. pose proof (a_tri _ _ _ _ _ T) as TT. assert (L : zlen nodes = n) by apply R. pose proof (t_n _ _ TT) as N0. set (x := set_row (G v) (zupd (n_row (G v)) c n)).
    assert (NEW : forall w, 0 <= w < n -> sig w <> sig v ++ [c + off]). { intros w Hw E. apply (a_in _ _ _ _ _ T v w c) in E; auto. lia. }
    assert (SG : forall w, w <> n -> fupd sig n (sig v ++ [c + off]) w = sig w) by (intros; apply fupd_diff; auto).
    split.
    - split.
      + lia.
      + rewrite SG by lia. apply TT.
      + intros u w Hu Hw. destruct (Z.eq_dec u n) as [->|Nu], (Z.eq_dec w n) as [->|Nw]; rewrite ?fupd_same, ?SG by auto; intro E; auto.
        * exfalso. apply (NEW w); [lia|auto].
        * exfalso. apply (NEW u); [lia|auto].
        * apply (t_inj _ _ TT); auto; lia.
      + intros w Hw. destruct (Z.eq_dec w n) as [->|Nw]; [exists v, (c + off); rewrite fupd_same, SG by lia; split; [lia|auto]|]. destruct (t_up _ _ TT w ltac:(lia)) as (u & d & Hu & E). exists u, d. rewrite !SG by lia. split; [lia|auto].
    - pose proof (rep_upd _ _ _ v x R Hv) as R1. split; [rewrite zlen_app, zlen_zupd, L; reflexivity|]. intros i Hi. destruct (Z.eq_dec i n) as [->|Ni].
      + rewrite fupd_same, vget_app2 by (rewrite zlen_zupd; lia). rewrite zlen_zupd, L, Z.sub_diag. reflexivity.
      + rewrite fupd_diff by auto. rewrite vget_app1 by (rewrite zlen_zupd; lia). apply (rep_get _ _ _ i R1). lia.
    - intros u Hu. destruct (Z.eq_dec u n) as [->|Nu]; [rewrite !fupd_same; apply rep_vrep; auto|]. rewrite !(fupd_diff _ n) by auto. destruct (Z.eq_dec u v) as [->|Nv]; [rewrite !fupd_same; apply rep_upd; [apply (a_row _ _ _ _ _ T); auto|auto]|]. rewrite !fupd_diff by auto. apply (a_row _ _ _ _ _ T). lia.
    - intros u i Hu Hi. destruct (Z.eq_dec u n) as [->|Nu]; [rewrite !fupd_same; auto|]. rewrite (fupd_diff _ n) by auto. rewrite (SG u Nu). destruct (Z.eq_dec u v) as [->|Nv].
      + rewrite fupd_same. destruct (Z.eq_dec i c) as [->|Ni]; [rewrite !fupd_same; right; split; [lia|auto]|]. rewrite fupd_diff by auto. destruct (a_ch _ _ _ _ _ T v i Hv Hi) as [Q|(Q & E)]; [auto|]. right. rewrite SG by lia. split; [lia|auto].
      + rewrite fupd_diff by auto. destruct (a_ch _ _ _ _ _ T u i ltac:(lia) Hi) as [Q|(Q & E)]; [auto|]. right. rewrite SG by lia. split; [lia|auto].
    - intros u w i Hu Hw Hi. destruct (Z.eq_dec u n) as [->|Nu].
      + rewrite fupd_same. intro E. exfalso. destruct (Z.eq_dec w n) as [->|Nw]; [rewrite fupd_same in E; apply (f_equal zlen) in E; rewrite !zlen_app in E; change (zlen [i + off]) with 1 in E; change (zlen [c + off]) with 1 in E; lia|]. rewrite SG in E by auto.
        destruct (node_prefix n sig TT w (sig v ++ [c + off]) (i + off) ltac:(lia) E) as (y & Hy & _ & Ey). apply (NEW y); auto.
      + rewrite (SG u Nu), (fupd_diff _ n _ u) by auto. destruct (Z.eq_dec w n) as [->|Nw].
        * rewrite fupd_same. intro E. apply app_inj_tail in E. destruct E as (E & Ei). assert (Ec : i = c) by lia. subst i. apply (t_inj _ _ TT) in E; [|lia|lia]. subst u. rewrite !fupd_same. reflexivity.
        * rewrite SG by auto. intro E. destruct (Z.eq_dec u v) as [->|Nv]; [|rewrite fupd_diff by auto; apply (a_in _ _ _ _ _ T); auto; lia]. rewrite fupd_same. rewrite fupd_diff; [apply (a_in _ _ _ _ _ T); auto; lia|]. intros ->. apply (NEW w); [lia|auto].
    - intros w s d Hw. destruct (Z.eq_dec w n) as [->|Nw].
      + rewrite fupd_same. intro E. apply app_inj_tail in E. lia.
      + rewrite SG by auto. apply (a_al _ _ _ _ _ T). lia.
  Qed.
  Lemma arr_add_ok s : forall nodes n sig G r cur, (forall c, In c s -> ck (c - off)) -> atrie nodes n sig G r -> 0 <= cur < n ->
    exists nodes' n' sig' G' r' w, arr_add al off nodes s cur = Ok (nodes', w) /\ atrie nodes' n' sig' G' r' /\ n <= n' /\ (forall v, 0 <= v < n -> sig' v = sig v /\ n_count (G' v) = n_count (G v) /\ n_fail (G' v) = n_fail (G v)) /\
      (forall v, n <= v < n' -> n_count (G' v) = 0 /\ n_fail (G' v) = 0) /\ 0 <= w < n' /\ sig' w = sig cur ++ s.
  Proof.
    induction s as [|c s IH]; intros nodes n sig G r cur HC T Hc; cbn [arr_add].
    - exists nodes, n, sig, G, r, cur. rewrite app_nil_r. split; [auto|]. split; [auto|]. split; [lia|]. split; [auto|]. split; [intros; lia|auto].
    - pose proof (HC c (or_introl eq_refl)) as Kc. cbv zeta. rewrite (rep_get _ _ _ cur (a_rep _ _ _ _ _ T) Hc). cbn [bind]. rewrite (rep_get _ _ _ _ (a_row _ _ _ _ _ T cur Hc) Kc). cbn [bind]. destruct (Z.eqb_spec (r cur (c - off)) (-1)) as [F|F].
      + rewrite (proj1 (a_rep _ _ _ _ _ T)), (rep_set _ _ _ _ n (a_row _ _ _ _ _ T cur Hc) Kc). cbn [bind]. rewrite (rep_set _ _ _ cur _ (a_rep _ _ _ _ _ T) Hc). cbn [bind]. pose proof (atrie_grow nodes n sig G r cur (c - off) T Hc Kc F) as T1.
        edestruct (IH _ _ _ _ _ n (fun d I => HC d (or_intror I)) T1 ltac:(lia)) as (nodes' & n' & sig' & G' & r' & w' & X & T' & L & K & K0 & Hw' & E'). exists nodes', n', sig', G', r', w'. split; [exact X|]. split; [auto|]. split; [lia|]. split.
        * intros v Hv. destruct (K v ltac:(lia)) as (K1 & K2 & K3). rewrite K1, K2, K3. rewrite !(fupd_diff _ n) by lia. split; [auto|]. destruct (Z.eq_dec v cur) as [->|Nv]; [rewrite fupd_same; auto|rewrite fupd_diff by auto; auto].
        * split; [|split; [auto|rewrite E', fupd_same, <- app_assoc; cbn [app]; do 2 f_equal; lia]]. intros v Hv. destruct (Z.eq_dec v n) as [->|Nv]; [|apply K0; lia]. destruct (K n ltac:(lia)) as (_ & K2 & K3). rewrite K2, K3, fupd_same. auto.
      + destruct (a_ch _ _ _ _ _ T cur (c - off) Hc Kc) as [Q|(Hw & E)]; [congruence|]. destruct (IH _ _ _ _ _ _ (fun d I => HC d (or_intror I)) T Hw) as (nodes' & n' & sig' & G' & r' & w' & X & T' & L & K & K0 & Hw' & E'). exists nodes', n', sig', G', r', w'. split; [exact X|]. split; [auto|]. split; [auto|]. split; [auto|]. split; [auto|]. split; [auto|]. rewrite E', E, <- app_assoc. cbn [app]. do 2 f_equal. lia.
  Qed.
  Lemma own_none ps (n : Z) sig t : (forall p, In p ps -> exists y, 0 <= y < n /\ sig y = p) -> (forall y, 0 <= y < n -> sig y <> t) -> own ps t = 0.
  Proof.
    intros H N. unfold own. induction ps as [|p l IH]; [reflexivity|]. cbn [filter]. destruct (list_eq_dec Z.eq_dec p t) as [->|_]; [|apply IH; intros; apply H; right; auto]. destruct (H t (or_introl eq_refl)) as (y & Hy & E). exfalso. apply (N y); auto.
  Qed.
  Lemma aadds_ok ps : (forall p c, In p ps -> In c p -> ck (c - off)) -> exists a n sig G r, for_each ps (fun s a => aca_add al off a s) (aca_new al) = Ok a /\ atrie (r_nodes a) n sig G r /\
    (forall p, In p ps -> exists y, 0 <= y < n /\ sig y = p) /\ forall v, 0 <= v < n -> n_count (G v) = own ps (sig v) /\ n_fail (G v) = 0.
  Proof.
    intro HC. destruct (for_each_inv (fun done a => exists n sig G r, atrie (r_nodes a) n sig G r /\ (forall p, In p done -> exists y, 0 <= y < n /\ sig y = p) /\ forall v, 0 <= v < n -> n_count (G v) = own done (sig v) /\ n_fail (G v) = 0) ps (fun s a => aca_add al off a s) (aca_new al)) as (a & X & n & sig & G & r & H).
    - exists 1, (fun _ => []), (fun _ => an_new al), (fun _ _ => -1). split; [apply atrie_start|]. split; [intros p []|]. auto.
    - intros done s t a Eq (n & sig & G & r & T & KP & KC). assert (Is : In s ps) by (rewrite Eq; apply in_or_app; right; left; auto). unfold aca_add. pose proof (t_n _ _ (a_tri _ _ _ _ _ T)) as N0.
      destruct (arr_add_ok s (r_nodes a) n sig G r 0 (fun c => HC s c Is) T ltac:(lia)) as (nodes' & n' & sig' & G' & r' & w & X & T' & Ln & K & K0 & Hw & E). rewrite X. cbn [bind]. rewrite (rep_get _ _ _ w (a_rep _ _ _ _ _ T') Hw). cbn [bind]. rewrite (rep_set _ _ _ w _ (a_rep _ _ _ _ _ T') Hw). cbn [bind]. eexists. split; [reflexivity|]. cbn [r_nodes].
      set (g := mkAN (n_row (G' w)) (n_count (G' w) + 1) (n_fail (G' w))). exists n', sig', (fupd G' w g), r'. rewrite (t_0 _ _ (a_tri _ _ _ _ _ T)) in E. cbn [app] in E.
      assert (KP' : forall p, In p done -> exists y, 0 <= y < n /\ sig' y = p) by (intros p I; destruct (KP p I) as (y & Hy & Ey); exists y; split; [auto|rewrite (proj1 (K y Hy)); auto]).
      split; [|split].
      + destruct T' as [T1 T2 T3 T4 T5 T6]. split; auto; [apply rep_upd; auto|]. intros v Hv. destruct (Z.eq_dec v w) as [->|Nv]; [rewrite fupd_same; unfold g; cbn [n_row]; auto|rewrite fupd_diff by auto; auto].
      + intros p I. apply in_app_or in I. destruct I as [I|[<-|[]]]; [destruct (KP' p I) as (y & Hy & Ey); exists y; split; [lia|auto]|exists w; auto].
      + intros v Hv. assert (B : n_count (G' v) = own done (sig' v) /\ n_fail (G' v) = 0).
        { destruct (Z_lt_ge_dec v n) as [Lv|Lv]; [destruct (K v ltac:(lia)) as (K1 & K2 & K3); rewrite K1, K2, K3; apply KC; lia|]. destruct (K0 v ltac:(lia)) as (-> & ->). split; [|auto]. symmetry. apply (own_none done n sig'); auto. intros y Hy Q. apply (t_inj _ _ (a_tri _ _ _ _ _ T')) in Q; lia. }
        unfold own. rewrite filter_app, zlen_app. fold (own done (sig' v)). cbn [filter]. destruct (Z.eq_dec v w) as [->|Nv].
        * rewrite fupd_same. unfold g. cbn [n_count n_fail]. rewrite (proj1 B), E. destruct (list_eq_dec Z.eq_dec s s); [split; [reflexivity|apply B]|congruence].
        * rewrite fupd_diff by auto. destruct (list_eq_dec Z.eq_dec s (sig' v)) as [Q|_]; [exfalso; apply Nv; apply (t_inj _ _ (a_tri _ _ _ _ _ T')); auto; congruence|]. change (zlen (@nil (list Z))) with 0. rewrite Z.add_0_r. auto.
    - exists a, n, sig, G, r. auto.
  Qed.

  Section B.
    Variable n : Z. Variable sig : Z -> list Z. Variable r0 : Z -> Z -> Z.
    Hypothesis TT : tri n sig.
    Notation vx v := (0 <= v < n).
    Notation dep v := (zlen (sig v)).
    Notation st := (st n sig).
    Hypothesis Hch : forall v i, vx v -> ck i -> r0 v i = -1 \/ vx (r0 v i) /\ sig (r0 v i) = sig v ++ [i + off].
    Hypothesis Hin : forall v w i, vx v -> vx w -> ck i -> sig w = sig v ++ [i + off] -> r0 v i = w.
    Hypothesis Hal : forall w s c, vx w -> sig w = s ++ [c] -> ck (c - off).
    Variable ps : list (list Z).
    Hypothesis HP : forall p, In p ps -> exists y, vx y /\ sig y = p.
    Lemma st_step t v c w : st t v -> st (sig v ++ [c]) w -> st (t ++ [c]) w.
    Proof.
      intros (Vv & S1 & M1) (Vw & S2 & M2). split; [auto|]. split.
      - apply (suffix_trans _ (sig v ++ [c])); auto. apply suffix_snoc. auto.
      - intros y Vy Sy. destruct (suffix_last _ _ _ Sy) as [E|(s & E & Ss)]; [rewrite E; change (zlen (@nil Z)) with 0; apply zlen_nonneg|]. apply M2; auto. rewrite E. apply suffix_snoc. destruct (node_prefix n sig TT y s c Vy E) as (u & Vu & _ & Eu). apply (suffix_total _ _ t); auto. rewrite <- Eu. apply M1; auto. rewrite Eu. auto.
    Qed.
    Lemma st_skip s w : st (tl s) w -> (forall y, vx y -> sig y <> s) -> st s w.
    Proof.
      intros (Vw & S1 & M1) N. split; [auto|]. split; [apply (suffix_trans _ (tl s)); [auto|apply tl_suffix]|]. intros y Vy Sy. apply M1; auto. apply suffix_tl; auto. pose proof (suffix_len _ _ Sy). assert (zlen (sig y) <> zlen s); [|lia]. intro Q. apply (N y Vy). apply (suffix_same _ _ s); auto. apply suffix_refl.
    Qed.
    Definition kids (v k : Z) : list Z := map (r0 v) (filter (fun i => negb (r0 v i =? -1)) (zrange k)).
    Lemma kids_in v k w : vx v -> 0 <= k <= al -> (In w (kids v k) <-> exists i, 0 <= i < k /\ vx w /\ sig w = sig v ++ [i + off]).
    Proof.
      intros Vv Hk. unfold kids. rewrite in_map_iff. split.
      - intros (i & E & I). apply filter_In in I. destruct I as (I & Q). apply In_zrange in I. apply Bool.negb_true_iff in Q. apply Z.eqb_neq in Q. exists i. destruct (Hch v i Vv ltac:(lia)) as [X|(X & Y)]; [congruence|]. subst w. auto.
      - intros (i & Hi & Vw & E). assert (Q : r0 v i = w) by (apply Hin; auto; lia). exists i. split; [auto|]. apply filter_In. split; [apply In_zrange; auto|]. apply Bool.negb_true_iff. apply Z.eqb_neq. lia.
    Qed.
    Lemma kids_nd v k : vx v -> 0 <= k <= al -> NoDup (kids v k).
    Proof.
      intros Vv Hk. apply NoDup_map_inj'; [|apply NoDup_filter, NoDup_zrange]. intros i j Ii Ij E. apply filter_In in Ii, Ij. destruct Ii as (Ii & Qi), Ij as (Ij & Qj). apply In_zrange in Ii, Ij. apply Bool.negb_true_iff in Qi, Qj. apply Z.eqb_neq in Qi, Qj. destruct (Hch v i Vv ltac:(lia)) as [X|(_ & X)]; [congruence|]. destruct (Hch v j Vv ltac:(lia)) as [Y|(_ & Y)]; [congruence|]. rewrite E, Y in X. apply app_inj_tail in X. lia.
    Qed.
    (* fail and count of the nodes seen so far; dn v i tells whether entry i of v is already the goto *)
    Record ainv (G : Z -> an) (r : Z -> Z -> Z) (seen : list Z) (dn : Z -> Z -> Prop) : Prop := {
      v_row : forall v, vx v -> rep (n_row (G v)) al (r v);
      v_dn : forall v i, vx v -> ck i -> dn v i -> st (sig v ++ [i + off]) (r v i);
      v_nd : forall v i, vx v -> ck i -> ~ dn v i -> r v i = r0 v i;
      v_seen : forall x, In x seen -> (x <> 0 -> st (tl (sig x)) (n_fail (G x))) /\ n_count (G x) = nm ps (sig x);
      v_new : forall x, vx x -> ~ In x seen -> n_count (G x) = own ps (sig x) }.
    Lemma slots_ok D cur dq nodes G r : rep nodes n G -> bfs n sig D (cur :: dq) -> ainv G r (D ++ cur :: dq) (fun v _ => In v D) ->
      exists nodes' G' r', for_ 0 al (aca_slot cur (n_fail (G cur))) (nodes, dq) = Ok (nodes', dq ++ kids cur al) /\ rep nodes' n G' /\ bfs n sig (D ++ [cur]) (dq ++ kids cur al) /\ ainv G' r' ((D ++ [cur]) ++ dq ++ kids cur al) (fun v _ => In v (D ++ [cur])).
    Proof.
      intros R B I. pose proof (t_n _ _ TT) as N0. assert (VC : vx cur) by (apply (b_vx _ _ _ _ B); apply in_or_app; right; left; auto).
      assert (ND : ~ In cur D). { pose proof (b_nd _ _ _ _ B) as Q. apply NoDup_remove_2 in Q. intro X. apply Q. apply in_or_app. auto. }
      set (f := n_fail (G cur)). assert (Icur : In cur (D ++ cur :: dq)) by (apply in_or_app; right; left; auto).
      assert (SF : cur <> 0 -> st (tl (sig cur)) f /\ In f D).
      { intro C0. destruct (v_seen _ _ _ _ I cur Icur) as (S & _). specialize (S C0). split; [auto|]. pose proof S as (Vf & Sf & _). apply (level_done n sig TT D cur dq f B Vf). apply suffix_len in Sf. fold f in Sf. rewrite zlen_tl in Sf; [lia|]. intro Q. apply C0. apply (sig_nil n sig TT); auto. }
      destruct (for_inv (fun k s => exists G' r', rep (fst s) n G' /\ snd s = dq ++ kids cur k /\ ainv G' r' ((D ++ cur :: dq) ++ kids cur k) (fun v i => In v D \/ v = cur /\ i < k)) 0 al (aca_slot cur f) (nodes, dq)) as ((nodes', dq') & X & G' & r' & R' & Q & I').
      - lia.
      - exists G, r. cbn [fst snd]. unfold kids. cbn [zrange]. change (zrange 0) with (@nil Z). cbn [filter map]. rewrite !app_nil_r. split; [auto|]. split; [auto|]. destruct I as [I1 I2 I3 I4 I5]. split; auto.
        + intros v i Vv Hi [Iv|Iv]; [auto|lia].
      - intros k (nodes1, dq1) Hk (G1 & r1 & R1 & Q & I1). cbn [fst snd] in R1, Q. subst dq1. set (c := k + off).
        assert (KS : kids cur (k + 1) = kids cur k ++ (if r0 cur k =? -1 then [] else [r0 cur k])). { unfold kids. rewrite zrange_S by lia. rewrite filter_app, map_app. cbn [filter]. destruct (r0 cur k =? -1); reflexivity. }
        assert (LINK : exists link, (if negb (cur =? 0) then let* y := vget nodes1 f in vget (n_row y) k else Ok 0) = Ok link /\ st (tl (sig cur ++ [c])) link).
        { destruct (Z.eqb_spec cur 0) as [C0|C0]; cbn [negb].
          - exists 0. split; [auto|]. rewrite C0, (t_0 _ _ TT). cbn [app tl]. apply st_nil; auto.
          - destruct (SF C0) as (S & Df). pose proof S as (Vf & _). rewrite (rep_get _ _ _ f R1 Vf). cbn [bind]. rewrite (rep_get _ _ _ k (v_row _ _ _ _ I1 f Vf) Hk). eexists. split; [reflexivity|]. rewrite tl_snoc by (intro Z0; apply C0; apply (sig_nil n sig TT); auto). apply (st_step _ f); [auto|]. apply (v_dn _ _ _ _ I1); auto. }
        destruct LINK as (link & XL & SL). unfold aca_slot. rewrite XL. cbn [bind]. rewrite (rep_get _ _ _ cur R1 VC). cbn [bind]. rewrite (rep_get _ _ _ k (v_row _ _ _ _ I1 cur VC) Hk). cbn [bind].
        rewrite (v_nd _ _ _ _ I1 cur k VC Hk) by (intros [Z0|Z0]; [tauto|lia]). pose proof SL as (VL & SuL & _). assert (LL : dep link <= dep cur). { apply suffix_len in SuL. rewrite zlen_tl in SuL by (destruct (sig cur); discriminate). rewrite zlen_app in SuL. change (zlen [c]) with 1 in SuL. lia. }
        destruct (Z.eqb_spec (r0 cur k) (-1)) as [Z1|Z1]; cbn [negb].
        + rewrite (rep_set _ _ _ k link (v_row _ _ _ _ I1 cur VC) Hk). cbn [bind]. rewrite (rep_set _ _ _ cur _ R1 VC). cbn [bind]. eexists. split; [reflexivity|]. exists (fupd G1 cur (set_row (G1 cur) (zupd (n_row (G1 cur)) k link))), (fupd r1 cur (fupd (r1 cur) k link)). cbn [fst snd]. split; [apply rep_upd; auto|]. rewrite KS, app_nil_r. split; [auto|].
          assert (SK : st (sig cur ++ [c]) link). { apply st_skip; [auto|]. intros y Vy E. assert (r0 cur k = y) by (apply Hin; auto). lia. }
          destruct I1 as [J1 J2 J3 J4 J5]. split.
          * intros v Vv. destruct (Z.eq_dec v cur) as [->|Nv]; [rewrite !fupd_same; cbn [n_row set_row]; apply rep_upd; auto|rewrite !fupd_diff by auto; auto].
          * intros v i Vv Hi Hd. destruct (Z.eq_dec v cur) as [->|Nv]; [|rewrite fupd_diff by auto; apply J2; auto; destruct Hd as [Hd|Hd]; [auto|lia]]. rewrite fupd_same. destruct (Z.eq_dec i k) as [->|Ni]; [rewrite fupd_same; exact SK|]. rewrite fupd_diff by auto. apply J2; auto. right. destruct Hd as [Hd|Hd]; [tauto|lia].
          * intros v i Vv Hi Hd. destruct (Z.eq_dec v cur) as [->|Nv]; [rewrite fupd_same, fupd_diff; [apply J3; auto; intros [Z0|Z0]; apply Hd; [auto|right; lia]|intros ->; apply Hd; right; lia]|]. rewrite fupd_diff by auto. apply J3; auto. intros [Z0|Z0]; apply Hd; [auto|lia].
          * intros x Ix. destruct (Z.eq_dec x cur) as [->|Nx]; [rewrite fupd_same; cbn [n_fail n_count set_row]; auto|rewrite fupd_diff by auto; auto].
          * intros x Vx Ix. rewrite fupd_diff; [auto|]. intros ->. apply Ix. apply in_or_app. auto.
        + destruct (Hch cur k VC Hk) as [Z0|(Vw & Ew)]; [congruence|]. set (w := r0 cur k) in *. fold c in Ew. destruct (child_new n sig TT D cur dq w c B Vw Ew) as (Nw & Zw). assert (Nk : ~ In w (kids cur k)). { intro Z0. apply kids_in in Z0; [|auto|lia]. destruct Z0 as (i & Hi & _ & E). rewrite Ew in E. apply app_inj_tail in E. lia. }
          rewrite (rep_get _ _ _ w R1 Vw). cbn [bind]. rewrite (rep_set _ _ _ w _ R1 Vw). cbn [bind]. set (g1 := mkAN (n_row (G1 w)) (n_count (G1 w)) link). pose proof (rep_upd _ _ _ w g1 R1 Vw) as R2. assert (NL : link <> w) by (intros ->; rewrite Ew, zlen_app in LL; change (zlen [c]) with 1 in LL; lia). rewrite (rep_get _ _ _ link R2 VL), (fupd_diff _ w) by auto. cbn [bind]. rewrite (rep_get _ _ _ w R2 Vw), fupd_same. cbn [bind]. rewrite (rep_set _ _ _ w _ R2 Vw). cbn [bind]. eexists. split; [reflexivity|].
          set (g2 := mkAN (n_row g1) (n_count g1 + n_count (G1 link)) (n_fail g1)). exists (fupd (fupd G1 w g1) w g2), r1. cbn [fst snd]. split; [apply rep_upd; auto|]. rewrite KS. split; [rewrite <- app_assoc; auto|].
          assert (FW : forall x, x <> w -> fupd (fupd G1 w g1) w g2 x = G1 x) by (intros x Nx; rewrite !fupd_diff by auto; auto).
          assert (In0 : ~ In w ((D ++ cur :: dq) ++ kids cur k)) by (rewrite in_app_iff; tauto).
          assert (SW : st (sig cur ++ [k + off]) w) by (fold c; rewrite <- Ew; apply st_self; auto).
          destruct I1 as [J1 J2 J3 J4 J5]. split.
          * intros v Vv. destruct (Z.eq_dec v w) as [->|Nv]; [rewrite fupd_same; unfold g2, g1; cbn [n_row]; auto|rewrite FW by auto; auto].
          * intros v i Vv Hi Hd. destruct Hd as [Hd|(-> & Hd)]; [apply J2; auto|]. destruct (Z.eq_dec i k) as [->|Ni]; [rewrite (J3 cur k VC Hk) by (intros [Z0|Z0]; [tauto|lia]); exact SW|]. apply J2; auto. right. lia.
          * intros v i Vv Hi Hd. apply J3; auto. intros [Z0|Z0]; apply Hd; [auto|right; lia].
          * intros x Ix. rewrite app_assoc in Ix. apply in_app_or in Ix. destruct (Z.eq_dec x w) as [->|Nx]; [|rewrite FW by auto; destruct Ix as [Ix|[Ix|[]]]; [auto|congruence]]. rewrite fupd_same. unfold g2, g1. cbn [n_fail n_count]. rewrite <- Ew in SL. split; [auto|]. rewrite (J5 w Vw In0). destruct (J4 link) as (_ & ->); [apply in_or_app; left; apply (level n sig TT); auto|]. symmetry. apply (nm_fail n sig TT); auto.
          * intros x Vx Ix. rewrite app_assoc, in_app_iff in Ix. cbn [In] in Ix. rewrite FW by (intros ->; tauto). apply J5; auto.
      - cbn [fst snd] in R', Q. subst dq'. exists nodes', G', r'. split; [exact X|]. split; [auto|]. split.
        + apply bfs_step; [auto|auto|apply kids_nd; [auto|lia]|]. intro w. rewrite kids_in by (auto; lia). split; [intros (i & Hi & Vw & E); split; [auto|exists (i + off); auto]|]. intros (Vw & c & E). exists (c - off). pose proof (Hal w _ _ Vw E). replace (c - off + off) with c by lia. auto.
        + replace ((D ++ [cur]) ++ dq ++ kids cur al) with ((D ++ cur :: dq) ++ kids cur al) by (rewrite <- !app_assoc; reflexivity). destruct I' as [J1 J2 J3 J4 J5]. split; auto.
          * intros v i Vv Hi Hd. apply J2; auto. apply in_app_or in Hd. destruct Hd as [Hd|[<-|[]]]; [auto|right; lia].
          * intros v i Vv Hi Hd. apply J3; auto. intros [Z0|(-> & Z0)]; apply Hd; apply in_or_app; [auto|right; left; auto].
    Qed.
    Lemma abfs_ok : forall fuel D dq nodes G r, (length D + fuel > Z.to_nat n)%nat -> rep nodes n G -> bfs n sig D dq -> ainv G r (D ++ dq) (fun v _ => In v D) ->
      exists nodes' G' r', loop fuel (aca_bfs al) (nodes, dq) = Ok nodes' /\ rep nodes' n G' /\ (forall v, vx v -> n_count (G' v) = nm ps (sig v) /\ rep (n_row (G' v)) al (r' v)) /\ forall v i, vx v -> ck i -> st (sig v ++ [i + off]) (r' v i).
    Proof.
      induction fuel as [|fuel IH]; intros D dq nodes G r L R B I; [pose proof (bfs_len n sig TT D dq B); lia|]. cbn [loop]. unfold aca_bfs at 1. destruct dq as [|cur dq].
      - cbn [bind]. exists nodes, G, r. split; [auto|]. split; [auto|]. rewrite app_nil_r in I. destruct I as [J1 J2 J3 J4 J5]. pose proof (bfs_all n sig TT D B) as A. split; [intros v Vv; split; [apply J4; auto|auto]|]. intros v i Vv Hi. apply J2; auto.
      - assert (VC : vx cur) by (apply (b_vx _ _ _ _ B); apply in_or_app; right; left; auto). rewrite (rep_get _ _ _ cur R VC). cbn [bind]. destruct (slots_ok D cur dq nodes G r R B I) as (nodes' & G' & r' & X & R' & B' & I'). rewrite X. cbn [bind]. apply (IH (D ++ [cur]) (dq ++ kids cur al) nodes' G' r'); auto. rewrite app_length. cbn [length]. lia.
    Qed.
  End B.
  Lemma own_nil ps : own ps [] = nm ps [].
  Proof.
    reflexivity.
  Qed.
  Lemma aca_of_ok ps : (forall p c, In p ps -> In c p -> ck (c - off)) -> exists a, aca_of al off ps = Ok a /\ forall t, (forall c, In c t -> ck (c - off)) -> exists s q, aca_read off a t = Ok s /\ aca_count a s = Ok q /\ q = nm ps t.
  Proof.
    intro HC. destruct (aadds_ok ps HC) as (a & n & sig & G & r & X & T & HP & KC). unfold aca_of. rewrite X. cbn [bind]. unfold aca_build, aca_loop. pose proof (a_tri _ _ _ _ _ T) as TT. pose proof (t_n _ _ TT) as N0. pose proof (a_rep _ _ _ _ _ T) as R. assert (V0 : 0 <= 0 < n) by lia. rewrite (rep_get _ _ _ 0 R V0). cbn [bind]. rewrite (rep_set _ _ _ 0 _ R V0). cbn [bind]. set (g := mkAN (n_row (G 0)) (n_count (G 0)) 0).
    pose proof (rep_upd _ _ _ 0 g R V0) as R1. assert (G0 : forall v, 0 <= v < n -> n_row (fupd G 0 g v) = n_row (G v) /\ n_count (fupd G 0 g v) = n_count (G v)) by (intros v Hv; destruct (Z.eq_dec v 0) as [->|Nv]; [rewrite fupd_same; auto|rewrite fupd_diff by auto; auto]).
    destruct (abfs_ok n sig r TT (a_ch _ _ _ _ _ T) (a_in _ _ _ _ _ T) (a_al _ _ _ _ _ T) ps HP (length (r_nodes a) + 1) [] [0] (zupd (r_nodes a) 0 g) (fupd G 0 g) r) with (2 := R1) as (nodes & G' & r' & X1 & R' & KN & KS).
    - pose proof (proj1 R) as Q. unfold zlen in Q. cbn [length]. lia.
    - apply bfs_start; auto.
    - cbn [app]. split.
      + intros v Vv. rewrite (proj1 (G0 v Vv)). apply (a_row _ _ _ _ _ T); auto.
      + intros v i _ _ [].
      + auto.
      + intros x [<-|[]]. split; [congruence|]. rewrite (proj2 (G0 0 V0)), (proj1 (KC 0 V0)), (t_0 _ _ TT). apply own_nil.
      + intros x Vx _. rewrite (proj2 (G0 x Vx)). apply KC. auto.
    - rewrite X1. cbn [bind]. eexists. split; [reflexivity|]. intros t Ht. assert (S : exists s, aca_read off (mkACA nodes true) t = Ok s /\ st n sig t s).
      { unfold aca_read. destruct (for_each_inv (fun d s => st n sig d s) t (fun c s => aca_next_state off (mkACA nodes true) s c) 0) as (s & Y & S).
        - apply st_nil; auto.
        - intros d c tl0 s Eq S. assert (Kc : ck (c - off)) by (apply Ht; rewrite Eq; apply in_or_app; right; left; auto). unfold aca_next_state. cbn [r_built r_nodes assert_ bind]. pose proof S as (Vs & _). rewrite (rep_get _ _ _ s R' Vs). cbn [bind]. rewrite (rep_get _ _ _ _ (proj2 (KN s Vs)) Kc). eexists. split; [reflexivity|]. apply (st_step n sig TT d s c); auto. pose proof (KS s (c - off) Vs Kc) as Q. replace (c - off + off) with c in Q by lia. exact Q.
        - exists s. auto. }
      destruct S as (s & Y & S). exists s, (nm ps (sig s)). split; [exact Y|]. split.
      + unfold aca_count. cbn [r_built r_nodes assert_ bind]. rewrite (rep_get _ _ _ s R' (proj1 S)). cbn [bind]. rewrite (proj1 (KN s (proj1 S))). reflexivity.
      + symmetry. apply (nm_state n sig ps t s); auto.
  Qed.
End P.
