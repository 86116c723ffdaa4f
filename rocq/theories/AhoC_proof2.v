(* Proofs about AhoC_model: the trie built by add, and the automaton over std::map. *)
From Verif Require Import Base BaseLemmas ListZ Seq ListMore AhoC_spec AhoC_model AhoC_proof.

Definition keys (m : list (Z * Z)) : list Z := map fst m.
Lemma mfind_In c w m : NoDup (keys m) -> (mfind c m = Some w <-> In (c, w) m).
Proof.
  induction m as [|(k, x) m IH]; cbn [mfind keys map fst In]; intro ND; [split; [discriminate|tauto]|]. inversion ND as [|? ? N1 N2]; subst. destruct (Z.eqb_spec k c) as [->|Q].
  - split; [intro H; injection H as ->; auto|]. intros [H|H]; [injection H as ->; auto|]. exfalso. apply N1. apply (in_map fst) in H. auto.
  - rewrite IH by auto. split; [auto|]. intros [H|H]; [injection H as -> ->; congruence|auto].
Qed.
Lemma mfind_none c m : mfind c m = None <-> ~ In c (keys m).
Proof.
  induction m as [|(k, x) m IH]; cbn [mfind keys map fst In]; [tauto|]. destruct (Z.eqb_spec k c) as [->|Q]; [split; [discriminate|tauto]|]. rewrite IH. unfold keys. tauto.
Qed.
Lemma mins_In c w m e : In e (mins c w m) <-> e = (c, w) \/ In e m.
Proof.
  induction m as [|(k, x) m IH]; cbn [mins In]; [split; [intros [<-|[]]; auto|intros [->|[]]; auto]|]. destruct (c <? k); cbn [In]; [split; intros [->|X]; auto|]. rewrite IH. tauto.
Qed.
Lemma mins_keys c w m : ~ In c (keys m) -> NoDup (keys m) -> NoDup (keys (mins c w m)).
Proof.
  induction m as [|(k, x) m IH]; intros N ND; cbn [mins]; [repeat constructor; intros []|]. destruct (c <? k); [constructor; auto|]. cbn [keys map fst] in *. inversion ND as [|? ? N1 N2]; subst. constructor.
  - intro I. apply in_map_iff in I. destruct I as ((k', x') & Q & I). cbn in Q. subst k'. apply mins_In in I. destruct I as [I|I]; [injection I as -> ->; apply N; left; auto|]. apply N1, (in_map fst _ _ I).
  - apply IH; [intro I; apply N; right; auto|auto].
Qed.
(* the vector of maps is a trie with strings sig *)
Record trie (nx : list (list (Z * Z))) (n : Z) (sig : Z -> list Z) (M : Z -> list (Z * Z)) : Prop := {
  r_tri : tri n sig; r_rep : rep nx n M;
  r_ch : forall v c w, 0 <= v < n -> (In (c, w) (M v) <-> 0 <= w < n /\ sig w = sig v ++ [c]);
  r_nd : forall v, 0 <= v < n -> NoDup (keys (M v)) }.
Lemma trie_start : trie trie_new 1 (fun _ => []) (fun _ => []).
Proof.
  split.
  - split; [lia|auto|intros v w Hv Hw _; lia|intros w Hw; lia].
  - split; [reflexivity|]. intros i Hi. replace i with 0 by lia. reflexivity.
  - intros v c w _. split; [intros []|]. intros (_ & H). discriminate.
  - intros; constructor.
Qed.
Lemma trie_grow nx n sig M v c : trie nx n sig M -> 0 <= v < n -> mfind c (M v) = None ->
  exists nx' M', vset nx v (mins c (zlen nx) (M v)) = Ok nx' /\ zlen nx = n /\ trie (nx' ++ [[]]) (n + 1) (fupd sig n (sig v ++ [c])) M'.
Proof.
  intros T Hv F. pose proof (r_rep _ _ _ _ T) as R. pose proof (r_tri _ _ _ _ T) as TT. assert (L : zlen nx = n) by apply R. rewrite L, (rep_set _ _ _ v _ R Hv). set (x := mins c n (M v)). eexists. exists (fupd (fupd M v x) n []). split; [reflexivity|]. split; [auto|]. pose proof (t_n _ _ TT) as N0.
  assert (NEW : forall w, 0 <= w < n -> sig w <> sig v ++ [c]). { intros w Hw E. apply mfind_none in F. apply F. assert (I : In (c, w) (M v)) by (apply (r_ch _ _ _ _ T); auto). apply (in_map fst _ _ I). }
  assert (SG : forall w, w <> n -> fupd sig n (sig v ++ [c]) w = sig w) by (intros; apply fupd_diff; auto).
  split.
  - split.
    + lia.
    + rewrite SG by lia. apply TT.
    + intros u w Hu Hw. destruct (Z.eq_dec u n) as [->|Nu], (Z.eq_dec w n) as [->|Nw]; rewrite ?fupd_same, ?SG by auto; intro E; auto.
      * exfalso. apply (NEW w); [lia|auto].
      * exfalso. apply (NEW u); [lia|auto].
      * apply (t_inj _ _ TT); auto; lia.
    + intros w Hw. destruct (Z.eq_dec w n) as [->|Nw]; [exists v, c; rewrite fupd_same, SG by lia; split; [lia|auto]|]. destruct (t_up _ _ TT w ltac:(lia)) as (u & d & Hu & E). exists u, d. rewrite !SG by lia. split; [lia|auto].
  - pose proof (rep_upd _ _ _ v x R Hv) as R1. split; [rewrite zlen_app, zlen_zupd, L; reflexivity|]. intros i Hi. destruct (Z.eq_dec i n) as [->|Ni].
    + rewrite fupd_same, vget_app2 by (rewrite zlen_zupd; lia). rewrite zlen_zupd, L, Z.sub_diag. reflexivity.
    + rewrite fupd_diff by auto. rewrite vget_app1 by (rewrite zlen_zupd; lia). apply (rep_get _ _ _ i R1). lia.
  - intros u d w Hu. destruct (Z.eq_dec u n) as [->|Nu].
    + rewrite fupd_same. rewrite fupd_same. split; [intros []|]. intros (Hw & E). exfalso. destruct (Z.eq_dec w n) as [->|Nw]; [rewrite fupd_same in E; apply (f_equal zlen) in E; rewrite !zlen_app in E; change (zlen [d]) with 1 in E; lia|]. rewrite SG in E by auto.
      destruct (node_prefix n sig TT w (sig v ++ [c]) d ltac:(lia) E) as (y & Hy & _ & Ey). apply (NEW y); auto.
    + rewrite fupd_diff by auto. rewrite (SG u Nu). destruct (Z.eq_dec u v) as [->|Nuv].
      * rewrite fupd_same. unfold x. rewrite mins_In, (r_ch _ _ _ _ T) by auto. split.
        -- intros [H|(Hw & E)]; [injection H as -> ->; rewrite fupd_same; split; [lia|auto]|]. rewrite SG by lia. split; [lia|auto].
        -- intros (Hw & E). destruct (Z.eq_dec w n) as [->|Nw]; [rewrite fupd_same in E; apply app_inj_tail in E; destruct E as (_ & ->); left; auto|]. rewrite SG in E by auto. right. split; [lia|auto].
      * rewrite fupd_diff by auto. rewrite (r_ch _ _ _ _ T) by lia. split.
        -- intros (Hw & E). rewrite SG by lia. split; [lia|auto].
        -- intros (Hw & E). destruct (Z.eq_dec w n) as [->|Nw]; [exfalso; rewrite fupd_same in E; apply app_inj_tail in E; destruct E as (E & _); apply Nuv; symmetry; apply (t_inj _ _ TT); auto; lia|]. rewrite SG in E by auto. split; [lia|auto].
  - intros u Hu. destruct (Z.eq_dec u n) as [->|Nu]; [rewrite fupd_same; constructor|]. rewrite fupd_diff by auto. destruct (Z.eq_dec u v) as [->|Nuv]; [rewrite fupd_same; apply mins_keys; [apply mfind_none; auto|apply (r_nd _ _ _ _ T); auto]|]. rewrite fupd_diff by auto. apply (r_nd _ _ _ _ T). lia.
Qed.
(* the strings of old nodes never change *)
Lemma trie_add_ok s : forall nx n sig M cur, trie nx n sig M -> 0 <= cur < n ->
  exists nx' n' sig' M' w, trie_add nx s cur = Ok (nx', w) /\ trie nx' n' sig' M' /\ n <= n' /\ (forall v, 0 <= v < n -> sig' v = sig v) /\ 0 <= w < n' /\ sig' w = sig cur ++ s.
Proof.
  induction s as [|c s IH]; intros nx n sig M cur T Hc; cbn [trie_add].
  - exists nx, n, sig, M, cur. rewrite app_nil_r. split; [auto|]. split; [auto|]. split; [lia|auto].
  - rewrite (rep_get _ _ _ cur (r_rep _ _ _ _ T) Hc). cbn [bind]. destruct (mfind c (M cur)) as [w|] eqn:F.
    + apply mfind_In in F; [|apply (r_nd _ _ _ _ T); auto]. apply (r_ch _ _ _ _ T) in F; auto. destruct F as (Hw & E). destruct (IH nx n sig M w T Hw) as (nx' & n' & sig' & M' & w' & X & T' & L & K & Hw' & E'). exists nx', n', sig', M', w'. split; [auto|]. split; [auto|]. split; [auto|]. split; [auto|]. split; [auto|]. rewrite E', E, <- app_assoc. reflexivity.
    + destruct (trie_grow nx n sig M cur c T Hc F) as (nx1 & M1 & X1 & L1 & T1). rewrite X1. cbn [bind]. rewrite L1. destruct (IH _ _ _ _ n T1 ltac:(lia)) as (nx' & n' & sig' & M' & w' & X & T' & L & K & Hw' & E'). exists nx', n', sig', M', w'. split; [exact X|]. split; [auto|]. split; [lia|]. split; [intros v Hv; rewrite K by lia; apply fupd_diff; lia|]. split; [auto|]. rewrite E', fupd_same, <- app_assoc. reflexivity.
Qed.

Section A.
  Variable nx : list (list (Z * Z)). Variable n : Z. Variable sig : Z -> list Z. Variable M : Z -> list (Z * Z).
  Hypothesis T : trie nx n sig M.
  Variable ps : list (list Z).
  Hypothesis HP : forall p, In p ps -> exists y, 0 <= y < n /\ sig y = p.
  Notation vx v := (0 <= v < n).
  Notation dep v := (zlen (sig v)).
  Let TT := r_tri _ _ _ _ T.
  Lemma walk_ok fl F t c : rep fl n F -> forall fuel x, upto n sig t c x -> (forall y, vx y -> y <> 0 -> dep y <= dep x -> st n sig (tl (sig y)) (F y)) -> dep x < Z.of_nat fuel -> exists w, ac_walk fuel nx fl x c = Ok w /\ st n sig (t ++ [c]) w.
  Proof using T.
    clear HP ps. intro R. induction fuel as [|fuel IH]; intros x U HF L; [pose proof (zlen_nonneg (sig x)); lia|]. cbn [ac_walk]. pose proof U as (Vx & _). rewrite (rep_get _ _ _ x (r_rep _ _ _ _ T) Vx). cbn [bind]. destruct (mfind c (M x)) as [w|] eqn:Fd.
    - apply mfind_In in Fd; [|apply (r_nd _ _ _ _ T); auto]. apply (r_ch _ _ _ _ T) in Fd; auto. destruct Fd as (Hw & E). exists w. split; [auto|]. apply (upto_found n sig TT t c x w); auto.
    - assert (N : forall w, vx w -> sig w <> sig x ++ [c]). { intros w Hw E. apply mfind_none in Fd. apply Fd. assert (I : In (c, w) (M x)) by (apply (r_ch _ _ _ _ T); auto). apply (in_map fst _ _ I). }
      destruct (Z.eqb_spec x 0) as [->|Nx]; [exists 0; split; [auto|apply upto_root; auto]|]. rewrite (rep_get _ _ _ x R Vx). cbn [bind]. destruct (upto_next n sig TT t c x (F x) U Nx N (HF x Vx Nx ltac:(lia))) as (U' & L'). apply IH; [auto| |lia]. intros y Vy Ny Ly. apply HF; auto. lia.
  Qed.
  Definition inv (D dq : list Z) (F Cn : Z -> Z) : Prop := bfs n sig D dq /\
    (forall x, In x (D ++ dq) -> (x <> 0 -> st n sig (tl (sig x)) (F x)) /\ Cn x = nm ps (sig x)) /\ (forall x, ~ In x (D ++ dq) -> F x = 0 /\ (vx x -> Cn x = own ps (sig x))).
  Hypothesis NE : ~ In [] ps.
  Lemma nm_nil : nm ps [] = 0.
  Proof.
    unfold nm. replace (filter (fun p => ends p []) ps) with (@nil (list Z)); [reflexivity|]. symmetry. clear HP. induction ps as [|p l IH]; [reflexivity|]. cbn [filter]. destruct (ends p []) eqn:Q.
    - apply ends_iff in Q. destruct Q as (q & Q). symmetry in Q. apply app_eq_nil in Q. destruct Q as (_ & ->). exfalso. apply NE. left. auto.
    - apply IH. intro I. apply NE. right. auto.
  Qed.
  Lemma children_ok D cur dq fl cnt F Cn : rep fl n F -> rep cnt n Cn -> inv D (cur :: dq) F Cn ->
    exists fl' cnt' F' Cn', for_each (M cur) (ac_child nx cur) (fl, cnt, dq) = Ok (fl', cnt', dq ++ map snd (M cur)) /\ rep fl' n F' /\ rep cnt' n Cn' /\ inv (D ++ [cur]) (dq ++ map snd (M cur)) F' Cn'.
  Proof.
    intros RF RC (B & I1 & I2). pose proof (t_n _ _ TT) as N0. assert (VC : vx cur) by (apply (b_vx _ _ _ _ B); apply in_or_app; right; left; auto). pose proof (r_nd _ _ _ _ T cur VC) as ND.
    assert (CH : forall c w, In (c, w) (M cur) <-> vx w /\ sig w = sig cur ++ [c]) by (intros c w; apply (r_ch _ _ _ _ T); auto).
    assert (NW : forall d x t, M cur = d ++ x :: t -> ~ In (snd x) (map snd d)).
    { intros d (c, w) t E I. cbn [snd] in I. apply in_map_iff in I. destruct I as ((c', w') & Q & I). cbn in Q. subst w'. assert (J : In (c', w) (M cur)) by (rewrite E; apply in_or_app; auto). assert (J' : In (c, w) (M cur)) by (rewrite E; apply in_or_app; right; left; auto). apply CH in J, J'. destruct J as (_ & J), J' as (_ & J'). rewrite J in J'. apply app_inj_tail in J'. destruct J' as (_ & ->).
      rewrite E in ND. unfold keys in ND. rewrite map_app in ND. cbn [map fst] in ND. apply (NoDup_remove_2 _ _ _ ND). apply in_or_app. left. apply (in_map fst _ _ I). }
    destruct (for_each_inv (fun d s => exists F' Cn', rep (fst (fst s)) n F' /\ rep (snd (fst s)) n Cn' /\ snd s = dq ++ map snd d /\
      (forall x, In x ((D ++ cur :: dq) ++ map snd d) -> (x <> 0 -> st n sig (tl (sig x)) (F' x)) /\ Cn' x = nm ps (sig x)) /\ (forall x, ~ In x ((D ++ cur :: dq) ++ map snd d) -> F' x = 0 /\ (vx x -> Cn' x = own ps (sig x)))) (M cur) (ac_child nx cur) (fl, cnt, dq)) as (((fl', cnt'), dq') & X & F' & Cn' & R1 & R2 & Q & J1 & J2).
    - exists F, Cn. cbn [fst snd map]. rewrite !app_nil_r. auto.
    - intros d (c, w) t ((fl1, cnt1), dq1) Eq (F1 & Cn1 & R1 & R2 & Q & J1 & J2). cbn [fst snd] in R1, R2, Q. subst dq1. pose proof (NW d (c, w) t Eq) as Nd. cbn [snd] in Nd. assert (Iw : In (c, w) (M cur)) by (rewrite Eq; apply in_or_app; right; left; auto). apply CH in Iw. destruct Iw as (Vw & Ew).
      destruct (child_new n sig TT D cur dq w c B Vw Ew) as (Nw & Zw). assert (Nw' : ~ In w ((D ++ cur :: dq) ++ map snd d)) by (rewrite in_app_iff; tauto). destruct (J2 w Nw') as (Fw & Cw). specialize (Cw Vw). unfold ac_child.
      assert (SEEN : forall x, vx x -> dep x <= dep cur -> In x ((D ++ cur :: dq) ++ map snd d)) by (intros x Vx Lx; apply in_or_app; left; apply (level n sig TT); auto).
      destruct (Z.eqb_spec cur 0) as [C0|C0]; cbn [negb bind].
      + eexists. split; [reflexivity|]. exists F1, Cn1. cbn [fst snd]. split; [auto|]. split; [auto|]. rewrite map_app. cbn [map snd]. split; [rewrite app_assoc; auto|].
        assert (SW : st n sig (tl (sig w)) 0) by (rewrite Ew, C0, (t_0 _ _ TT); cbn [app tl]; apply st_nil; auto).
        split.
        * intros x I. rewrite app_assoc in I. apply in_app_or in I. destruct I as [I|[<-|[]]]; [apply J1; auto|]. rewrite Fw, Cw. split; [auto|]. rewrite (nm_fail n sig TT ps w 0 HP Vw Zw SW), (t_0 _ _ TT), nm_nil. lia.
        * intros x I. apply J2. intro Z0. apply I. rewrite app_assoc. apply in_or_app. auto.
      + rewrite (rep_get _ _ _ cur R1 VC). cbn [bind]. assert (Ic : In cur ((D ++ cur :: dq) ++ map snd d)) by (apply SEEN; [auto|lia]). destruct (J1 cur Ic) as (Sc & _). specialize (Sc C0). assert (NC : sig cur <> []) by (intro Z0; apply C0; apply (sig_nil n sig TT); auto).
        pose proof Sc as (VF & SF & _). apply suffix_len in SF. rewrite zlen_tl in SF by auto.
        destruct (walk_ok fl1 F1 (tl (sig cur)) c R1 (length nx) (F1 cur)) as (x & X & Sx).
        { apply upto_start; auto. }
        { intros y Vy Ny Ly. apply J1; auto. apply SEEN; [auto|lia]. }
        { pose proof (dep_le n sig TT cur VC). assert (Ln : zlen nx = n) by apply (r_rep _ _ _ _ T). unfold zlen in Ln. unfold zlen in *. lia. }
        rewrite <- (tl_snoc (sig cur) c NC), <- Ew in Sx. pose proof Sx as (Vx & Ssx & _). assert (Lx : dep x <= dep cur). { apply suffix_len in Ssx. rewrite zlen_tl in Ssx by (rewrite Ew; destruct (sig cur); discriminate). rewrite Ew, zlen_app in Ssx. change (zlen [c]) with 1 in Ssx. lia. }
        rewrite X. cbn [bind]. rewrite (rep_set _ _ _ w x R1 Vw). cbn [bind]. rewrite (rep_get _ _ _ x R2 Vx). cbn [bind]. rewrite (rep_get _ _ _ w R2 Vw). cbn [bind]. rewrite (rep_set _ _ _ w _ R2 Vw). cbn [bind]. eexists. split; [reflexivity|]. eexists. eexists. cbn [fst snd]. split; [apply rep_upd; [exact R1|exact Vw]|]. split; [apply rep_upd; [exact R2|exact Vw]|].
        rewrite map_app. cbn [map snd]. split; [rewrite app_assoc; auto|]. destruct (J1 x (SEEN x Vx Lx)) as (_ & Cx). split.
        * intros y I. destruct (Z.eq_dec y w) as [->|Ny].
          -- rewrite !fupd_same. split; [auto|]. rewrite Cw, Cx. symmetry. apply (nm_fail n sig TT ps w x HP Vw Zw Sx).
          -- rewrite !fupd_diff by auto. apply J1. rewrite app_assoc in I. apply in_app_or in I. destruct I as [I|[->|[]]]; [auto|congruence].
        * intros y I. rewrite app_assoc, in_app_iff in I. cbn [In] in I. rewrite !fupd_diff by (intros ->; tauto). apply J2. tauto.
    - cbn [fst snd] in *. exists fl', cnt', F', Cn'. rewrite X, Q. split; [reflexivity|]. split; [auto|]. split; [auto|]. assert (EQ : (D ++ [cur]) ++ dq ++ map snd (M cur) = (D ++ cur :: dq) ++ map snd (M cur)) by (rewrite <- !app_assoc; reflexivity). unfold inv. rewrite EQ. split; [|auto].
      apply bfs_step; auto.
      + clear - NW. assert (K : forall l pre, M cur = pre ++ l -> NoDup (map snd pre) -> NoDup (map snd (pre ++ l))).
        { induction l as [|x l IH]; intros pre E N; [rewrite app_nil_r; auto|]. replace (pre ++ x :: l) with ((pre ++ [x]) ++ l) by (rewrite <- app_assoc; reflexivity). apply IH; [rewrite E, <- app_assoc; reflexivity|]. rewrite map_app. apply NoDup_app_snoc; [auto|]. apply (NW pre x l); auto. }
        apply (K (M cur) []); [reflexivity|constructor].
      + intro w. split.
        * intro I. apply in_map_iff in I. destruct I as ((c, w') & Q0 & I). cbn in Q0. subst w'. apply CH in I. split; [tauto|exists c; tauto].
        * intros (Vw & c & E). apply in_map_iff. exists (c, w). split; [reflexivity|apply CH; auto].
  Qed.
  Lemma bfs_ok fl cnt : rep fl n (fun _ => 0) -> rep cnt n (fun v => own ps (sig v)) -> exists fl' cnt' F, loop (length nx + 1) (ac_bfs nx) (fl, cnt, [0]) = Ok (fl', cnt') /\ rep fl' n F /\ rep cnt' n (fun v => nm ps (sig v)) /\ forall x, vx x -> x <> 0 -> st n sig (tl (sig x)) (F x).
  Proof.
    intros RF RC. pose proof (t_n _ _ TT) as N0. assert (Ln : length nx = Z.to_nat n) by (pose proof (proj1 (r_rep _ _ _ _ T)) as Q; unfold zlen in Q; lia).
    assert (K : forall fuel D dq fl cnt F Cn, (length D + fuel > Z.to_nat n)%nat -> rep fl n F -> rep cnt n Cn -> inv D dq F Cn -> exists fl' cnt' F', loop fuel (ac_bfs nx) (fl, cnt, dq) = Ok (fl', cnt') /\ rep fl' n F' /\ rep cnt' n (fun v => nm ps (sig v)) /\ forall x, vx x -> x <> 0 -> st n sig (tl (sig x)) (F' x)).
    { induction fuel as [|fuel IH]; intros D dq fl1 cnt1 F Cn L R1 R2 I.
      - pose proof (bfs_len n sig TT D dq (proj1 I)). lia.
      - cbn [loop]. unfold ac_bfs at 1. destruct dq as [|cur dq].
        + cbn [bind]. exists fl1, cnt1, F. split; [reflexivity|]. split; [auto|]. destruct I as (B & I1 & I2). rewrite app_nil_r in I1. split; [|intros x Vx Nx; apply I1; auto; apply (bfs_all n sig TT D B); auto]. eapply rep_ext; [exact R2|]. intros x Vx. apply I1. apply (bfs_all n sig TT D B); auto.
        + assert (VC : vx cur) by (apply (b_vx _ _ _ _ (proj1 I)); apply in_or_app; right; left; auto). rewrite (rep_get _ _ _ cur (r_rep _ _ _ _ T) VC). cbn [bind]. destruct (children_ok D cur dq fl1 cnt1 F Cn R1 R2 I) as (fl2 & cnt2 & F2 & Cn2 & X & R1' & R2' & I'). rewrite X. cbn [bind]. apply (IH (D ++ [cur]) _ fl2 cnt2 F2 Cn2); auto. rewrite app_length. cbn [length]. lia. }
    apply (K _ [] [0] fl cnt (fun _ => 0) (fun v => own ps (sig v))); auto; [rewrite Ln; cbn [length]; lia|].
    split; [apply bfs_start; auto|]. cbn [app In]. split; [|auto]. intros x [<-|[]]. split; [congruence|]. rewrite (t_0 _ _ TT), nm_nil. unfold own. clear - NE. induction ps as [|p l IH]; [reflexivity|]. cbn [filter]. destruct (list_eq_dec Z.eq_dec p []) as [->|_]; [exfalso; apply NE; left; auto|]. apply IH. intro I. apply NE. right. auto.
  Qed.
End A.

(* adding the patterns *)
Lemma adds_ok ps : exists a n sig M, for_each ps (fun s a => ac_add a s) ac_new = Ok a /\ trie (a_next a) n sig M /\ a_fail a = [] /\ a_count a = [] /\
  zlen (a_marks a) = zlen ps /\ forall i p, vget ps i = Ok p -> exists v, vget (a_marks a) i = Ok v /\ 0 <= v < n /\ sig v = p.
Proof.
  destruct (for_each_inv (fun done a => exists n sig M, trie (a_next a) n sig M /\ a_fail a = [] /\ a_count a = [] /\
    zlen (a_marks a) = zlen done /\ forall i p, vget done i = Ok p -> exists v, vget (a_marks a) i = Ok v /\ 0 <= v < n /\ sig v = p) ps (fun s a => ac_add a s) ac_new) as (a & X & n & sig & M & H).
  - exists 1, (fun _ => []), (fun _ => []). split; [apply trie_start|]. split; [auto|]. split; [auto|]. split; [auto|]. intros i p Y. apply vget_range in Y. change (zlen (@nil (list Z))) with 0 in Y. lia.
  - intros done s t a Eq (n & sig & M & T & F & C & L & K). unfold ac_add. pose proof (t_n _ _ (r_tri _ _ _ _ T)). destruct (trie_add_ok s (a_next a) n sig M 0 T ltac:(lia)) as (nx' & n' & sig' & M' & w & X & T' & Ln & Ko & Hw & E). rewrite X. cbn [bind]. eexists. split; [reflexivity|]. exists n', sig', M'. cbn [a_next a_fail a_count a_marks]. split; [auto|]. split; [auto|]. split; [auto|]. rewrite !zlen_app, L. split; [reflexivity|].
    intros i p Y. destruct (Z_lt_ge_dec i (zlen done)) as [Li|Li].
    + pose proof (vget_range _ _ _ Y). rewrite vget_app1 in Y by lia. destruct (K i p Y) as (v & Yv & Hv & Ev). exists v. rewrite vget_app1 by (rewrite L; lia). split; [auto|]. split; [lia|]. rewrite Ko; auto.
    + pose proof (vget_range _ _ _ Y) as Rg. rewrite zlen_app in Rg. change (zlen [s]) with 1 in Rg. replace i with (zlen done) in * by lia. rewrite vget_app2 in Y by lia. rewrite Z.sub_diag in Y. injection Y as <-. exists w. rewrite vget_app2 by lia. rewrite L, Z.sub_diag. split; [reflexivity|]. split; [auto|]. rewrite E, (t_0 _ _ (r_tri _ _ _ _ T)). reflexivity.
  - exists a, n, sig, M. auto.
Qed.
Lemma bump_ok n sig ps marks cnt : tri n sig -> (forall i p, vget ps i = Ok p -> exists v, vget marks i = Ok v /\ 0 <= v < n /\ sig v = p) -> zlen marks = zlen ps -> rep cnt n (fun _ => 0) ->
  exists cnt', for_each marks (fun m cnt => let* x := vget cnt m in vset cnt m (x + 1)) cnt = Ok cnt' /\ rep cnt' n (fun v => own ps (sig v)).
Proof.
  intros TT H L R. assert (E : forall done v tl, marks = done ++ v :: tl -> 0 <= v < n /\ exists p, firstn (length (done ++ [v])) ps = firstn (length done) ps ++ [p] /\ sig v = p).
  { intros done v tl Eq. assert (Hl : 0 <= zlen done < zlen ps) by (rewrite <- L, Eq, zlen_app, zlen_cons; pose proof (zlen_nonneg done); pose proof (zlen_nonneg tl); lia). destruct (vget_Ok ps (zlen done) Hl) as (p & Y). destruct (H _ _ Y) as (v' & Y' & Hv & Ev). rewrite Eq, vget_app2 in Y' by lia. rewrite Z.sub_diag in Y'. injection Y' as <-. split; [auto|]. exists p. split; [|auto].
    apply vget_nth_error in Y. assert (NT : Z.to_nat (zlen done) = length done) by (unfold zlen; lia). rewrite NT in Y. rewrite app_length. cbn [length]. rewrite Nat.add_1_r. clear - Y. revert Y. generalize (length done) as k. intro k. revert ps. induction k as [|k IH]; intros [|q l] Y; try discriminate; cbn in Y |- *; [injection Y as ->; reflexivity|]. f_equal. apply IH; auto. }
  destruct (for_each_inv (fun done cnt => rep cnt n (fun v => own (firstn (length done) ps) (sig v))) marks (fun m cnt => let* x := vget cnt m in vset cnt m (x + 1)) cnt) as (cnt' & X & R').
  - exact R.
  - intros done v tl c Eq R1. destruct (E done v tl Eq) as (Hv & p & Ef & Ep). rewrite (rep_get _ _ _ v R1 Hv). cbn [bind]. rewrite (rep_set _ _ _ v _ R1 Hv). eexists. split; [reflexivity|]. eapply rep_ext; [apply rep_upd; [exact R1|exact Hv]|]. intros u Hu. cbn beta. rewrite Ef. unfold own. rewrite filter_app, zlen_app. cbn [filter]. destruct (Z.eq_dec u v) as [->|Nu].
    + rewrite fupd_same, Ep. destruct (list_eq_dec Z.eq_dec p p); [reflexivity|congruence].
    + rewrite fupd_diff by auto. destruct (list_eq_dec Z.eq_dec p (sig u)) as [Q|Q]; [exfalso; apply Nu; apply (t_inj _ _ TT); auto; congruence|]. change (zlen (@nil (list Z))) with 0. lia.
  - exists cnt'. split; [exact X|]. replace ps with (firstn (length marks) ps); [auto|]. apply firstn_all2. unfold zlen in L. lia.
Qed.
Lemma grow_nil n : 0 <= n -> rep (grow [] n) n (fun _ => 0).
Proof. intro H. unfold grow. rewrite firstn_nil. cbn [app]. change (zlen (@nil Z)) with 0. rewrite Z.sub_0_r. apply rep_vrep; auto. Qed.
Lemma ac_of_ok ps : ~ In [] ps -> exists a, ac_of ps = Ok a /\ forall t, exists s q, ac_read a t = Ok s /\ ac_count a s = Ok q /\ q = nm ps t.
Proof.
  intro NE. destruct (adds_ok ps) as (a & n & sig & M & X & T & F0 & C0 & L & K). unfold ac_of. rewrite X. cbn [bind]. unfold ac_build. rewrite F0, C0. pose proof (r_tri _ _ _ _ T) as TT. pose proof (t_n _ _ TT) as N0. rewrite (proj1 (r_rep _ _ _ _ T)).
  destruct (bump_ok n sig ps (a_marks a) (grow [] n) TT K L (grow_nil n ltac:(lia))) as (cnt & X1 & RC). rewrite X1. cbn [bind].
  assert (HP : forall p, In p ps -> exists y, 0 <= y < n /\ sig y = p). { intros p I. apply In_vget in I. destruct I as (i & _ & Y). destruct (K i p Y) as (v & _ & Hv & E). exists v. auto. }
  destruct (bfs_ok (a_next a) n sig M T ps HP NE (grow [] n) cnt (grow_nil n ltac:(lia)) RC) as (fl & cnt' & F & X2 & RF & RC' & HF). rewrite X2. cbn [bind]. eexists. split; [reflexivity|]. intro t.
  assert (S : exists s, ac_read (mkAC fl (a_next a) (a_marks a) cnt' true) t = Ok s /\ st n sig t s).
  { unfold ac_read. destruct (for_each_inv (fun d s => st n sig d s) t (fun c s => ac_next_state (mkAC fl (a_next a) (a_marks a) cnt' true) s c) 0) as (s & Y & S).
    - apply st_nil; auto.
    - intros d c tl s _ S. unfold ac_next_state. cbn [a_built assert_ bind a_next a_fail]. pose proof S as (Vs & _). apply (walk_ok (a_next a) n sig M T fl F d c RF); [apply upto_start; auto|intros; apply HF; auto|].
      pose proof (dep_le n sig TT s Vs). pose proof (proj1 (r_rep _ _ _ _ T)) as Q. unfold zlen in *. lia.
    - exists s. auto. }
  destruct S as (s & Y & S). exists s, (nm ps (sig s)). split; [exact Y|]. split; [unfold ac_count; cbn [a_built assert_ bind a_count]; apply (rep_get _ _ _ s RC' (proj1 S))|]. symmetry. apply (nm_state n sig ps t s); auto.
Qed.
