(* get_tree_path and the depth-first numbering of LevelAncestor *)
From Verif Require Import Base BaseLemmas ListZ ListMore Graph_spec Tree_spec BFS_proof Tree_proof Tree_proof2 Tree_proof3 Tree_proof4 Tree_proof5 HLD_proof HLD_proof3 LowLink_proof4 LevAnc_model.

Notation cnodes := (flat_map nodes).
Notation not_ p := (fun v => negb (v =? p)).
Lemma found_skip fuel g v cur par row (res : list Z) : for_each row (fun nxt (s : bool * list Z) => let '(found, res) := s in
        if (found : bool) then Ok s else if nxt =? par then Ok s else gp_dfs fuel g v nxt cur res) (true, res) = Ok (true, res).
Proof. induction row as [|x row IH]; auto. Qed.
Section Path.
  Variables (g : list (list Z)) (pf dep rt : Z -> Z).
  Hypothesis R : rooted g pf.
  Hypothesis D : dep_ok g pf dep rt.
  Definition gp_goal (t : rose) : Prop := forall fuel v res, (length (nodes t) <= fuel)%nat ->
    (In v (nodes t) /\ exists q c, gp_dfs fuel g v (root t) (pf (root t)) res = Ok (true, res ++ q) /\ route (hop g) (root t) v q c /\ NoDup q /\ incl q (nodes t)) \/
    (~ In v (nodes t) /\ gp_dfs fuel g v (root t) (pf (root t)) res = Ok (false, res)).
  Lemma gp_row fuel v u : forall adj cs res, map root cs = filter (not_ (pf u)) adj -> (forall c, In c cs -> pf (root c) = u) -> (forall c, In c cs -> gp_goal c) -> (length (cnodes cs) <= fuel)%nat ->
    let r := for_each adj (fun nxt (s : bool * list Z) => let '(found, res) := s in if (found : bool) then Ok s else if nxt =? pf u then Ok s else gp_dfs fuel g v nxt u res) (false, res) in
    (exists c q k, In c cs /\ r = Ok (true, res ++ q) /\ route (hop g) (root c) v q k /\ NoDup q /\ incl q (nodes c)) \/ (~ In v (cnodes cs) /\ r = Ok (false, res)).
  Proof.
    induction adj as [|x adj IH]; intros cs res M P G L.
    - right. destruct cs; [|discriminate]. split; auto.
    - cbn [filter] in M. cbn [for_each]. destruct (Z.eqb_spec x (pf u)) as [E|N]; cbn [negb] in M; cbn [bind]; [apply IH; auto|].
      destruct cs as [|c cs]; [discriminate|]. cbn [map] in M. injection M as Ex M. cbn [flat_map] in L. rewrite app_length in L.
      rewrite <- Ex. destruct (G c (or_introl eq_refl) fuel v res ltac:(lia)) as [(I & q & k & Eq & Rq & Nq & Iq)|(Ni & Eq)]; cbn zeta.
      + left. exists c, q, k. split; [now left|]. rewrite (P c) in Eq by now left. rewrite Eq. cbn [bind]. split; auto. apply found_skip.
      + rewrite (P c) in Eq by now left. rewrite Eq. cbn [bind]. destruct (IH cs res M) as [(d & q & k & Id & X)|(Nd & X)]; auto.
        * intros; apply P; now right.
        * intros; apply G; now right.
        * lia.
        * left. exists d, q, k. split; [now right|auto].
        * right. split; auto. cbn [flat_map]. rewrite in_app_iff. tauto.
  Qed.
  Lemma gp_ok t : fits g pf t -> gp_goal t.
  Proof.
    induction 1 as [u cs adj Hu Ea M P F IH]. intros fuel v res L. cbn [nodes root length] in *. destruct fuel as [|fuel]; [lia|].
    pose proof (fits_nodup g pf dep rt R D (Rose u cs) ltac:(econstructor; eauto)) as Nd. cbn [nodes] in Nd. inversion Nd as [|? ? Nu Nc]; subst x l.
    cbn [gp_dfs]. destruct (Z.eqb_spec u v) as [E|N].
    - left. split; [left; auto|]. exists [u], 0. split; [auto|]. split; [rewrite E; constructor|]. split; [repeat constructor; auto|]. intros w [<-|[]]. now left.
    - rewrite Ea. cbn [bind]. pose proof (gp_row fuel v u adj cs (res ++ [u]) M P IH ltac:(lia)) as X. cbn zeta in X. destruct X as [(c & q & k & Ic & -> & Rq & Nq & Iq)|(Nv & ->)]; cbn [bind].
      + left. assert (Iv : In v (nodes c)). { apply Iq. clear - Rq. induction Rq; [now left|now right]. }
        split; [right; apply in_flat_map; eauto|]. exists (u :: q), (1 + k). rewrite <- app_assoc. split; [auto|]. split; [|split].
        * econstructor; [|exact Rq]. split; auto. apply (edge_par g pf R); auto. split; [apply (fits_anc g pf c); auto using root_In|left; auto].
        * constructor; auto. intros I. apply Nu, in_flat_map. eauto.
        * intros w [<-|Hw]; [now left|right]. apply in_flat_map. eauto.
      + right. split; [intros [|]; auto|]. now rewrite removelast_last.
  Qed.
End Path.

(* a tree, rooted at any vertex *)
Lemma tree_rooted g r : tree g -> vertex g r -> exists par dep rt t, rooted g par /\ dep_ok g par dep rt /\ fits g par t /\ root t = r /\ par r = -1 /\
  (forall v, vertex g v -> par v = -1 -> v = r) /\ forall v, In v (nodes t) <-> vertex g v.
Proof.
  intros T Vr. pose proof (tree_forest g T) as Fo. pose proof T as (Pos & _ & _ & Cn & _).
  assert (One : one_each g [r]). { split; [intros x [<-|[]]; auto|]. split; [repeat constructor|]. intros v Hv. exists r. split; [now left|auto]. }
  destruct (choose_one_each g [r] Fo One) as (par & R & Hr). destruct (dep_fun g par R) as (dep & rt & D & m & B).
  destruct (grow_exists g par dep rt R D m B r Vr) as (t & Rt & F). assert (P0 : par r = -1) by (apply Hr; auto; now left).
  assert (Un : forall v, vertex g v -> par v = -1 -> v = r). { intros v Hv E. destruct (proj1 (Hr v Hv) E) as [X|[]]; auto. }
  exists par, dep, rt, t. split; [exact R|]. split; [exact D|]. split; [exact F|]. split; [exact Rt|]. split; [exact P0|]. split; [exact Un|]. intros v. rewrite (comp_nodes par dep rt g t r R D F Rt P0 Vr v).
  split; [tauto|]. intros Hv. split; auto. apply Un; [now apply (rt_vertex g par dep rt D)|now apply (par_rt g par dep rt D)].
Qed.
Lemma get_tree_path_ok g u v : tree g -> vertex g u -> vertex g v -> exists p, get_tree_path g u v = Ok p /\ simple_path g u v p.
Proof.
  intros T Hu Hv. destruct (tree_rooted g u T Hu) as (par & dep & rt & t & R & D & F & Rt & P0 & Un & Al).
  unfold get_tree_path. destruct (gp_ok g par dep rt R D t F (length g) v [] (fits_size g par dep rt R D t F)) as [(_ & q & c & E & Rq & Nq & _)|(N & _)]; [|destruct N; now apply Al].
  rewrite Rt, P0 in E. rewrite E. exists q. split; auto. split; auto. rewrite Rt in Rq. eauto.
Qed.

Section Numbering.
  Variables (g : list (list Z)) (pf dep rt : Z -> Z).
  Hypothesis R : rooted g pf.
  Hypothesis D : dep_ok g pf dep rt.
  Notation n := (zlen g).
  Definition at_ (d : Z) (l : list Z) : Z := zlen (filter (fun v => dep v =? d) l).
  (* after the vertices P have been visited, in this order *)
  Definition numbered (P : list Z) (s : la_st) : Prop := let '(vt, vti, dp, cnt, time) := s in
    zlen vt = n /\ zlen vti = n /\ zlen dp = n /\ zlen cnt = n + 1 /\ time = zlen P /\
    (forall i v, vget P i = Ok v -> vget vt v = Ok i /\ vget vti i = Ok v /\ vget dp v = Ok (dep v)) /\
    vget cnt 0 = Ok 0 /\ forall d, 0 <= d < n -> vget cnt (d + 1) = Ok (at_ d P).
  Definition dp_of (s : la_st) : list Z := let '(_, _, dp, _, _) := s in dp.
  Hypothesis small : forall v, vertex g v -> dep v < n.
  Definition la_goal (t : rose) : Prop := forall fuel P s, (length (nodes t) <= fuel)%nat -> numbered P s -> vget (dp_of s) (root t) = Ok (dep (root t)) ->
    NoDup (P ++ nodes t) -> (forall v, In v (P ++ nodes t) -> vertex g v) -> exists s', la_dfs fuel g (root t) (pf (root t)) s = Ok s' /\ numbered (P ++ nodes t) s'.
  Lemma numbered_room P x l s : numbered P s -> NoDup (P ++ x :: l) -> (forall v, In v (P ++ x :: l) -> vertex g v) -> zlen P < n.
  Proof.
    intros _ Nd V. pose proof (NoDup_range_length (P ++ x :: l) n Nd (fun v H => V v H)) as X. rewrite zlen_app, zlen_cons in X. pose proof (zlen_nonneg l). pose proof (zlen_nonneg g). lia.
  Qed.
  Lemma la_row fuel u : vertex g u -> forall adj cs P s, map root cs = filter (not_ (pf u)) adj -> (forall c, In c cs -> pf (root c) = u) -> (forall c, In c cs -> la_goal c) ->
    (length (cnodes cs) <= fuel)%nat -> numbered P s -> In u P -> NoDup (P ++ cnodes cs) -> (forall v, In v (P ++ cnodes cs) -> vertex g v) ->
    exists s', for_each adj (fun v (s : la_st) => if v =? pf u then Ok s else
        let '(vt, vti, dep, cnt, time) := s in
        let* du := vget dep u in
        let* dep := vset dep v (du + 1) in
        la_dfs fuel g v u (vt, vti, dep, cnt, time)) s = Ok s' /\ numbered (P ++ cnodes cs) s'.
  Proof.
    intros Hu. induction adj as [|x adj IH]; intros cs P s M Pc G L Nm Iu Nd V.
    - destruct cs; [|discriminate]. cbn [flat_map]. rewrite app_nil_r. exists s. auto.
    - cbn [filter] in M. cbn [for_each]. destruct (Z.eqb_spec x (pf u)) as [E|N]; cbn [negb] in M; cbn [bind]; [apply IH; auto|].
      destruct cs as [|c cs]; [discriminate|]. cbn [map] in M. injection M as Ex M. cbn [flat_map] in *. rewrite app_length in L. rewrite app_assoc in Nd, V |- *.
      assert (Pc' := Pc c (or_introl eq_refl)). assert (Vc : vertex g x). { apply V. apply in_app_iff. left. apply in_app_iff. right. rewrite <- Ex. apply root_In. }
      assert (Dx : dep x = dep u + 1). { rewrite <- Ex in Vc |- *. rewrite (dep_par g pf dep rt D (root c) Vc); rewrite Pc'; auto. unfold vertex in Hu. lia. }
      destruct s as [[[[vt vti] dp] cnt] time]. destruct Nm as (L1 & L2 & L3 & L4 & Tm & Ip & C0 & C1).
      destruct (In_vget _ _ Iu) as (iu & _ & Eu). destruct (Ip _ _ Eu) as (_ & _ & Du). rewrite Du. cbn [bind]. unfold vertex in Vc. rewrite vset_ok by lia. cbn [bind].
      set (s1 := (vt, vti, zupd dp x (dep u + 1), cnt, time) : la_st).
      assert (N1 : numbered P s1).
      { unfold s1. cbn. rewrite zlen_zupd. split; [auto|]. split; [auto|]. split; [auto|]. split; [auto|]. split; [auto|]. split; [|auto]. intros y w Ey. destruct (Ip _ _ Ey) as (A & B & C). split; auto. split; auto.
        destruct (Z.eq_dec w x) as [->|Nw]; [rewrite vget_zupd_same by lia; f_equal; lia|]. now rewrite vget_zupd_diff by lia. }
      destruct (G c (or_introl eq_refl) fuel P s1) as (s2 & E2 & N2); auto.
      + lia.
      + cbn [dp_of s1]. rewrite Ex, vget_zupd_same by lia. f_equal. lia.
      + clear - Nd. apply NoDup_app_l in Nd. exact Nd.
      + intros w Hw. apply V. apply in_app_iff. now left.
      + rewrite Ex in E2. rewrite <- Ex, Pc', Ex in E2. rewrite E2. cbn [bind]. apply IH; auto.
        * intros; apply Pc; now right.
        * intros; apply G; now right.
        * lia.
        * apply in_app_iff. now left.
  Qed.
  Lemma la_dfs_ok t : fits g pf t -> la_goal t.
  Proof.
    induction 1 as [u cs adj Hu Ea M P0 F IH]. intros fuel P s L Nm Dp Nd V. cbn [nodes root length] in *. destruct fuel as [|fuel]; [lia|].
    pose proof (numbered_room _ _ _ _ Nm Nd V) as Rm. destruct s as [[[[vt vti] dp] cnt] time]. destruct Nm as (L1 & L2 & L3 & L4 & -> & Ip & C0 & C1). cbn [dp_of] in Dp.
    pose proof (small u Hu) as Su. pose proof (dep_nonneg g pf dep rt D u Hu) as Pu. pose proof Hu as Hu'. unfold vertex in Hu'. pose proof (zlen_nonneg P) as Zp.
    cbn [la_dfs]. rewrite !vset_ok by lia. cbn [bind]. rewrite Dp. cbn [bind]. rewrite C1 by lia. cbn [bind]. rewrite vset_ok by lia. cbn [bind]. rewrite Ea. cbn [bind].
    replace (P ++ u :: cnodes cs) with ((P ++ [u]) ++ cnodes cs) in * by (now rewrite <- app_assoc).
    apply (la_row fuel u Hu adj cs (P ++ [u])); auto; [lia| |apply in_app_iff; right; now left].
    assert (Nu : ~ In u P). { intros I. apply NoDup_app_l in Nd. apply NoDup_remove_2 in Nd. rewrite app_nil_r in Nd. contradiction. }
    unfold numbered. rewrite !zlen_zupd. repeat (split; [solve [auto]|]). split; [rewrite zlen_app; reflexivity|]. split; [|split].
    - intros i v Ei. apply vget_snoc in Ei as [Ei|(-> & ->)].
      + destruct (Ip _ _ Ei) as (A & B & C). assert (v <> u) by (intros ->; apply Nu; eapply vget_In; eauto). pose proof (vget_range _ _ _ Ei). rewrite !vget_zupd_diff by lia. auto.
      + rewrite !vget_zupd_same by lia. auto.
    - rewrite vget_zupd_diff by lia. auto.
    - intros d Hd. unfold at_. rewrite filter_snoc, zlen_app. fold (at_ d P). destruct (Z.eqb_spec (dep u) d) as [E|E].
      + subst d. rewrite vget_zupd_same by lia. reflexivity.
      + rewrite vget_zupd_diff, C1 by lia. change (zlen (@nil Z)) with 0. f_equal. lia.
  Qed.
End Numbering.
