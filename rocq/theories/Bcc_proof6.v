(* Proofs about Bcc_model: the statements of Bcc_props, assembled. *)
From Coq Require Import Relations Sorted.
From Verif Require Import Base BaseLemmas ListZ Seq ListMore SpSeg_proof UnionFind_spec UnionFind_proof LowLink_spec LowLink_model LowLink_proof LowLink_proof2 LowLink_proof3 LowLink_proof4 Bcc_spec Bcc_model Bcc_proof Bcc_proof2 Bcc_proof3 Bcc_proof4 Bcc_proof5.

Lemma vget_noloop n E id : graph_on n E -> no_loops E -> 0 <= id < zlen E -> exists a b, vget E id = Ok (a, b) /\ a <> b.
Proof. intros _ NL H. destruct (vget_Ok E id H) as ((a, b) & Y). exists a, b. split; [auto|]. intros ->. apply (NL b), (vget_In _ _ _ Y). Qed.
Lemma bc_make_ok n E stk : 0 <= n -> graph_on n E -> exists s G w rs comp k f F, bc_make n E stk = Ok (mkB s comp k (isos n G), stk) /\ cert n E s G w rs /\ rep comp (zlen E) f /\ blocks n G w f F k.
Proof.
  intros Hn HE. destruct (make_ok n E Hn HE) as (s & G & w & rs & X & C). unfold bc_make. rewrite X. cbn [bind]. destruct (search_ok n E s G w rs C [] stk Hn) as (comp & k & f & F & Y & R & B). rewrite Y. exists s, G, w, rs, comp, k, f, F. auto.
Qed.
Lemma isos_sorted n G : StronglySorted Z.lt (isos n G).
Proof. apply sorted_filter, sorted_zrange. Qed.
Lemma sorted_nodup l : StronglySorted Z.lt l -> NoDup l.
Proof. induction 1 as [|a l S IH F]; constructor; auto. intro I. rewrite Forall_forall in F. specialize (F a I). lia. Qed.

Lemma bcc_ok n E stk : 0 <= n -> graph_on n E -> no_loops E ->
  exists b k iso, bc_make n E stk = Ok (b, stk) /\ bc_edge_component_num b = Ok k /\ bc_isolated_vertices b = Ok iso /\
    bc_isolated_vertex_num b = Ok (zlen iso) /\ bc_component_num b = Ok (k + zlen iso) /\ (forall c, bc_is_isolated_component b c = true <-> k <= c) /\
    StronglySorted Z.lt iso /\ (forall v, In v iso <-> isolated n E v) /\
    (forall e, 0 <= e < zlen E -> exists c, bc_get b e = Ok c /\ 0 <= c < k) /\
    (forall c, 0 <= c < k -> exists e, bc_get b e = Ok c) /\
    (forall e e' c c', bc_get b e = Ok c -> bc_get b e' = Ok c' -> (c = c' <-> inseparable E e e')) /\
    exists r, bc_components b = Ok r /\ zlen r = k + zlen iso /\
      (forall c, 0 <= c < k -> exists vs es, vget r c = Ok (vs, es) /\ StronglySorted Z.lt es /\ (forall e, In e es <-> bc_get b e = Ok c) /\ NoDup vs /\ forall v, In v vs <-> exists e, In e es /\ endpoint E e v) /\
      (forall j v, vget iso j = Ok v -> vget r (k + j) = Ok ([v], [])).
Proof.
  intros Hn HE NL. destruct (bc_make_ok n E stk Hn HE) as (s & G & w & rs & comp & k & f & F & X & C & R & B). set (b := mkB s comp k (isos n G)) in *. exists b, k, (isos n G).
  assert (BB : l_built (b_ll b) = true) by apply C. pose proof B as (K0 & _).
  assert (GET : forall e, bc_get b e = vget comp e) by (intro e; unfold bc_get; rewrite BB; reflexivity).
  assert (GI : forall e c, bc_get b e = Ok c <-> 0 <= e < zlen E /\ f e = c). { intros e c. rewrite GET. split; [intro Y; pose proof (vget_range _ _ _ Y) as Rg; rewrite (proj1 R) in Rg; split; [auto|]; rewrite (rep_get _ _ _ e R Rg) in Y; congruence|]. intros (He & <-). apply (rep_get _ _ _ e R He). }
  assert (FR : forall e, 0 <= e < zlen E -> 0 <= f e < k). { intros e He. destruct (vget_noloop n E e HE NL He) as (x & y & Y & Nxy). apply (f_range n E s G w rs C f F k B e x y); auto. }
  split; [exact X|]. split; [unfold bc_edge_component_num; rewrite BB; reflexivity|]. split; [unfold bc_isolated_vertices; rewrite BB; reflexivity|]. split; [unfold bc_isolated_vertex_num; rewrite BB; reflexivity|].
  split; [unfold bc_component_num; rewrite BB; reflexivity|]. split; [intro c; unfold bc_is_isolated_component; cbn [b b_num]; apply Z.leb_le|]. split; [apply isos_sorted|]. split; [apply (In_isos n E s G w rs C)|].
  split; [intros e He; exists (f e); split; [apply GI; auto|apply FR; auto]|].
  split; [intros c Hc; destruct (f_onto n E s G w rs C f F k B c Hc) as (e & He & Fe); exists e; apply GI; auto|].
  split. { intros e e' c c' H H'. apply GI in H, H'. destruct H as (He & <-), H' as (He' & <-). destruct (vget_noloop n E e HE NL He) as (x & y & Y & Nxy), (vget_noloop n E e' HE NL He') as (x' & y' & Y' & Nxy'). apply (f_insep n E s G w rs C f F k B e e' x y x' y'); auto. }
  destruct (components_ok n E b f Hn HE BB (c_n _ _ _ _ _ _ C) (c_E _ _ _ _ _ _ C) R K0 FR) as (r & Y & L & R1 & R2). exists r. split; [exact Y|]. split; [exact L|]. split; [|exact R2].
  intros c Hc. destruct (R1 c Hc) as (vs & es & Y1 & Y2 & Y3 & Y4). exists vs, es. split; [auto|]. split; [auto|]. split; [|auto]. intro e. rewrite Y3, GI. reflexivity.
Qed.

Lemma block_cut_ok n E stk b k iso arts : 0 <= n -> graph_on n E -> no_loops E -> bc_make n E stk = Ok (b, stk) ->
  bc_edge_component_num b = Ok k -> bc_isolated_vertices b = Ok iso -> ll_articulation_points (b_ll b) = Ok arts ->
  let has := member E (bc_get b) k iso arts in
  let adj f c c' := exists l, bf_adj f c = Ok l /\ In c' l in
  exists f, bf_make b = Ok f /\ bf_size f = k + zlen iso + zlen arts /\
    (forall c, bf_is_articulation_point f c = true <-> k + zlen iso <= c) /\
    (forall c, bf_is_biconnected_component f c = true <-> c < k + zlen iso) /\
    (forall c, bf_is_isolated_vertex f c = true <-> k <= c < k + zlen iso) /\
    (forall c, 0 <= c < bf_size f -> exists l, bf_adj f c = Ok l /\ NoDup l /\
       forall c', In c' l <-> 0 <= c' < bf_size f /\ bf_is_articulation_point f c <> bf_is_articulation_point f c' /\ exists v, has c v /\ has c' v) /\
    (forall c, 0 <= c < bf_size f -> exists q, bf_vertex_num f c = Ok q /\ counts n (has c) q) /\
    (forall v, 0 <= v < n -> exists c, bf_component_id f v = Ok c /\ bf_is_biconnected_component f c = true /\ has c v /\
       forall c', bf_is_biconnected_component f c' = true -> has c' v -> c' = c \/ In v arts) /\
    forest (adj f) /\
    (forall u v c c', bf_component_id f u = Ok c -> bf_component_id f v = Ok c' -> (clos_refl_sym_trans Z (adj f) c c' <-> connected E u v)).
Proof.
  intros Hn HE NL X0 X1 X2 X3. destruct (bc_make_ok n E stk Hn HE) as (s & G & w & rs & comp & k' & f & F & X & C & R & B). rewrite X in X0. injection X0 as <-. set (b := mkB s comp k' (isos n G)) in *.
  assert (BB : l_built (b_ll b) = true) by apply C. unfold bc_edge_component_num in X1. rewrite BB in X1. injection X1 as <-. unfold bc_isolated_vertices in X2. rewrite BB in X2. injection X2 as <-. unfold ll_articulation_points in X3. rewrite BB in X3. injection X3 as <-.
  intros has adj. pose proof B as (K0 & _). pose proof (In_isos n E s G w rs C) as II. pose proof (c_ar _ _ _ _ _ _ C) as AI.
  assert (FR : forall e, 0 <= e < zlen E -> 0 <= f e < k'). { intros e He. destruct (vget_noloop n E e HE NL He) as (x & y & Y & Nxy). apply (f_range n E s G w rs C f F k' B e x y); auto. }
  assert (GI : forall e c, bc_get b e = Ok c <-> 0 <= e < zlen E /\ f e = c). { intros e c. unfold bc_get. rewrite BB. cbn [assert_ bind b b_comp]. split; [intro Y; pose proof (vget_range _ _ _ Y) as Rg; rewrite (proj1 R) in Rg; split; [auto|]; rewrite (rep_get _ _ _ e R Rg) in Y; congruence|]. intros (He & <-). apply (rep_get _ _ _ e R He). }
  destruct (bf_make_ok n E b f Hn HE BB (c_n _ _ _ _ _ _ C) (c_E _ _ _ _ _ _ C) R K0 FR (sorted_nodup _ (isos_sorted n G)) II (c_and _ _ _ _ _ _ C) (fun v I => proj1 (proj1 (AI v) I))) as (FF & ai & gl & cv & vn & Y & M).
  destruct M as [M1 M2 M3 M4 M5 M6 M7 M8 M9 M10 M11 M12 M13 M14]. cbn [b b_iso b_num b_ll] in *. set (iso := isos n G) in *. set (arts := d_art (l_ds s)) in *.
  assert (SZ : bf_size FF = k' + zlen iso + zlen arts) by (unfold bf_size; lia).
  assert (HM : forall c v, has c v <-> mem n w F k' iso arts c v).
  { intros c v. unfold has, member, mem. rewrite <- (mem_iff n E s G w rs C NL f F k' B c v). apply or_iff_compat_r. split; intros (e & H); [destruct H as (H & He); apply GI in H; exists e; tauto|exists e; rewrite GI; tauto]. }
  assert (AD : forall c c', adj FF c c' <-> Bcc_proof5.adj k' iso arts gl c c').
  { intros c c'. unfold adj, Bcc_proof5.adj, bf_adj. split.
    - intros (l & Hl & I). pose proof (vget_range _ _ _ Hl) as Rg. rewrite (proj1 M4) in Rg. rewrite (rep_get _ _ _ c M4 Rg) in Hl. injection Hl as <-. auto.
    - intros (Hc & I). exists (gl c). split; [apply (rep_get _ _ _ c M4 Hc)|auto]. }
  assert (CL : forall c c', clos_refl_sym_trans Z (adj FF) c c' <-> linked k' iso arts gl c c').
  { intros c c'. unfold linked. split; intro H; (induction H; [apply rst_step, AD; auto|apply rst_refl|apply rst_sym; auto|eapply rst_trans; eauto]). }
  exists FF. split; [exact Y|]. split; [exact SZ|]. unfold bf_is_isolated_vertex, bf_is_biconnected_component, bf_is_articulation_point. rewrite M1, M2.
  split; [intro c; apply Z.leb_le|]. split; [intro c; rewrite Bool.negb_true_iff, Z.leb_gt; reflexivity|]. split; [intro c; rewrite Bool.andb_true_iff, Bool.negb_true_iff, Z.leb_gt, Z.leb_le; reflexivity|].
  rewrite SZ. split; [|split; [|split; [|split]]].
  - intros c Hc. exists (gl c). split; [apply (rep_get _ _ _ c M4 Hc)|]. split; [apply M9; auto|]. intro c'. rewrite (adj_spec n E s G w rs C NL f F k' B iso arts ai gl II AI M7 M8 M10 c c') by auto.
    assert (Q : (k' + zlen iso <= c <-> ~ k' + zlen iso <= c') <-> (k' + zlen iso <=? c) <> (k' + zlen iso <=? c')) by (destruct (Z.leb_spec (k' + zlen iso) c), (Z.leb_spec (k' + zlen iso) c'); split; intro; try congruence; lia).
    rewrite Q. split; intros (Z1 & Z2 & v & Z3 & Z4); (split; [auto|]); (split; [auto|]); exists v; (split; apply HM; auto).
  - intros c Hc. exists (vn c). split; [apply (rep_get _ _ _ c M5 Hc)|].
    assert (Q : counts n (mem n w F k' iso arts c) (vn c)). { destruct (Z_lt_ge_dec c (k' + zlen iso)) as [Lc|Lc].
      - rewrite M13 by lia. apply (vnum_block n E s G w rs C NL f F k' B iso arts ai gl cv II AI M7 M8 M10 M11 M12 c); lia.
      - rewrite M14 by lia. apply (vnum_art n G w f F k' B iso arts ai AI M7 M8 c); lia. }
    destruct Q as (l & L1 & L2 & L3). exists l. split; [auto|]. split; [|auto]. intro v. rewrite L2, HM. reflexivity.
  - intros v Hv. exists (cv v). split; [apply (rep_get _ _ _ v M6 Hv)|]. destruct (cv_spec n E s G w rs C NL f F k' B iso arts cv II AI M11 M12 v Hv) as (Z1 & Z2 & Z3). split; [rewrite Bool.negb_true_iff, Z.leb_gt; lia|]. split; [apply HM; auto|].
    intros c' Hc H. rewrite Bool.negb_true_iff, Z.leb_gt in Hc. apply Z3; [lia|apply HM; auto].
  - pose proof (forest_ok n E s G w rs C NL f F k' B iso arts ai gl M7 M8 M10) as FO. intros x y H. apply AD in H. specialize (FO x y H). intro Z0. apply FO. clear - Z0 AD.
    assert (K : forall p q, clos_refl_sym_trans Z (fun a b => adj FF a b /\ ~ (a = x /\ b = y) /\ ~ (a = y /\ b = x)) p q -> clos_refl_sym_trans Z (fun a b => Bcc_proof5.adj k' iso arts gl a b /\ ~ (a = x /\ b = y) /\ ~ (a = y /\ b = x)) p q); [|apply K; auto].
    clear Z0. intros p q H. induction H as [a b0 (U1 & U2)| | |]; [apply rst_step; split; [apply AD; auto|auto]|apply rst_refl|apply rst_sym; auto|eapply rst_trans; eauto].
  - intros u v c c' Hu Hv. unfold bf_component_id in Hu, Hv. pose proof (vget_range _ _ _ Hu) as Ru. pose proof (vget_range _ _ _ Hv) as Rv. rewrite (proj1 M6) in Ru, Rv. rewrite (rep_get _ _ _ u M6 Ru) in Hu. rewrite (rep_get _ _ _ v M6 Rv) in Hv. injection Hu as <-. injection Hv as <-.
    destruct (cv_spec n E s G w rs C NL f F k' B iso arts cv II AI M11 M12 u Ru) as (_ & Z2 & _), (cv_spec n E s G w rs C NL f F k' B iso arts cv II AI M11 M12 v Rv) as (_ & Z2' & _). rewrite CL. split; intro H.
    + apply (linked_conn n E s G w rs C NL f F k' B iso arts ai gl II AI M7 M8 M10 (cv u) (cv v)); auto.
    + apply (conn_linked n E s G w rs C NL f F k' B iso arts ai gl cv II AI M7 M8 M10 M11 M12 u v); auto.
Qed.
