(* The compressed adjacency lists of rerooting.hpp *)
From Verif Require Import Base BaseLemmas ListZ ListMore Seq Graph_spec Tree_spec HLD_proof HLD_proof2 HLD_proof4 HLD_proof6 Rerooting_model Rerooting_spec.
From Coq Require Import Permutation.

Definition cnt (x : Z) (l : list Z) : Z := zlen (filter (fun y => y =? x) l).
Definition off (k : Z) (l : list Z) : Z := zlen (filter (fun y => y <? k) l).
Lemma cnt_app x a b : cnt x (a ++ b) = cnt x a + cnt x b. Proof. unfold cnt. now rewrite filter_app, zlen_app. Qed.
Lemma cnt_one x y : cnt x [y] = if y =? x then 1 else 0. Proof. unfold cnt. cbn. now destruct (y =? x). Qed.
Lemma cnt_nonneg x l : 0 <= cnt x l. Proof. apply size_nonneg. Qed.
Lemma off_S k l : off (k + 1) l = off k l + cnt k l.
Proof.
  unfold off, cnt. induction l as [|y l IH]; [reflexivity|]. cbn [filter].
  destruct (Z.ltb_spec y (k + 1)), (Z.ltb_spec y k), (Z.eqb_spec y k); rewrite ?zlen_cons; lia.
Qed.
Lemma off_mono j k l : j <= k -> off j l <= off k l.
Proof.
  intros Hj. unfold off. induction l as [|y l IH]; [reflexivity|]. cbn [filter].
  destruct (Z.ltb_spec y j), (Z.ltb_spec y k); rewrite ?zlen_cons; lia.
Qed.
Lemma off_all k l : (forall y, In y l -> y < k) -> off k l = zlen l.
Proof.
  intros H. unfold off. induction l as [|y l IH]; [reflexivity|]. cbn [filter]. destruct (Z.ltb_spec y k); [|specialize (H y (or_introl eq_refl)); lia]. rewrite !zlen_cons, IH; auto. intros z I. apply H. now right.
Qed.
Lemma off_0 l : (forall y, In y l -> 0 <= y) -> off 0 l = 0.
Proof.
  intros H. unfold off. induction l as [|y l IH]; [reflexivity|]. cbn [filter]. destruct (Z.ltb_spec y 0); [specialize (H y (or_introl eq_refl)); lia|]. apply IH. intros z I. apply H. now right.
Qed.

Section CSR.
  Context {W : Type}.
  Variable w0 : W.
  Notation ga := (gv 0).
  Definition items (es : list (cedge W)) : list (Z * (Z * W)) := flat_map (fun '(u, v, w) => [(u, (v, w)); (v, (u, w))]) es.
  Definition nbl (l : list (Z * (Z * W))) (x : Z) : list (Z * W) := map snd (filter (fun p => fst p =? x) l).
  Lemma nbl_app a b x : nbl (a ++ b) x = nbl a x ++ nbl b x. Proof. unfold nbl. now rewrite filter_app, map_app. Qed.
  Lemma nbrs_items es x : nbrs es x = nbl (items es) x.
  Proof.
    unfold nbrs, items. induction es as [|((u, v), w) es IH]; [reflexivity|]. cbn [flat_map]. rewrite nbl_app, <- IH. f_equal. unfold nbl. cbn. now destruct (u =? x), (v =? x).
  Qed.
  Lemma nbl_cnt l x : zlen (nbl l x) = cnt x (map fst l).
  Proof. unfold nbl, cnt. rewrite zlen_map. induction l as [|p l IH]; [reflexivity|]. cbn [map filter]. destruct (fst p =? x); rewrite ?zlen_cons; lia. Qed.
  Lemma count_items es s : for_each es csr_count s = for_each (items es) (fun p s => let* x := vget s (fst p) in vset s (fst p) (x + 1)) s.
  Proof.
    revert s. induction es as [|((u, v), w) es IH]; intros s; auto. cbn [items flat_map app for_each]. unfold csr_count at 1. cbn [fst].
    destruct (vget s u); cbn [bind]; auto. destruct (vset s u _); cbn [bind]; auto. destruct (vget _ v); cbn [bind]; auto. destruct (vset _ v _); cbn [bind]; auto.
  Qed.
  Lemma put_items es s : for_each es (fun '(u, v, w) s => let* s := csr_put u (v, w) s in csr_put v (u, w) s) s = for_each (items es) (fun p s => csr_put (fst p) (snd p) s) s.
  Proof.
    revert s. induction es as [|((u, v), w) es IH]; intros s; auto. cbn [items flat_map app for_each fst snd].
    destruct (csr_put u _ s); cbn [bind]; auto. destruct (csr_put v _ _); cbn [bind]; auto.
  Qed.
  Variables (n : Z) (es : list (cedge W)).
  Hypothesis N0 : 0 <= n.
  Hypothesis Ok_ : forall u v w, In (u, v, w) es -> 0 <= u < n /\ 0 <= v < n.
  Notation L := (items es).
  Notation keys := (map fst L).
  Lemma keys_range y : In y keys -> 0 <= y < n.
  Proof. intros I. apply in_map_iff in I as (p & <- & I). unfold items in I. apply in_flat_map in I as (((u, v), w) & I & J). destruct (Ok_ _ _ _ I). destruct J as [<-|[<-|[]]]; auto. Qed.
  Lemma items_len : zlen L = 2 * zlen es.
  Proof. clear. unfold items. induction es as [|((u, v), w) l IH]; [reflexivity|]. cbn [flat_map app]. rewrite !zlen_cons. lia. Qed.
  Lemma count_ok : exists s, for_each es csr_count (vrep (n + 1) 0) = Ok s /\ zlen s = n + 1 /\ forall i, 0 <= i <= n -> ga s i = cnt i keys.
  Proof.
    rewrite count_items.
    destruct (for_each_inv (fun dn s => zlen s = n + 1 /\ forall i, 0 <= i <= n -> ga s i = cnt i (map fst dn)) L (fun p s => let* x := vget s (fst p) in vset s (fst p) (x + 1)) (vrep (n + 1) 0)) as (s & E & Hs).
    - split; [apply zlen_vrep; lia|]. intros i Hi. rewrite gv_vrep by lia. reflexivity.
    - intros dn x td s El (Ls & Hs). assert (Kx : 0 <= fst x < n). { apply keys_range. apply in_map. rewrite El. apply in_app_iff. right. now left. }
      rewrite (vget_gv 0) by lia. cbn [bind]. rewrite vset_ok by lia. eexists. split; [reflexivity|]. split; [now rewrite zlen_zupd|]. intros i Hi. rewrite gv_zupd by lia. rewrite map_app, cnt_app. cbn [map]. rewrite cnt_one, !Hs by lia. destruct (Z.eqb_spec (fst x) i); subst; lia.
    - exists s. auto.
  Qed.
  Lemma prefix_ok s : zlen s = n + 1 -> (forall i, 0 <= i <= n -> ga s i = cnt i keys) -> exists s', csr_prefix n s = Ok s' /\ zlen s' = n + 1 /\ forall i, 0 <= i <= n -> ga s' i = off (i + 1) keys.
  Proof.
    intros Ls Hs. unfold csr_prefix.
    destruct (for_inv (fun i t => zlen t = n + 1 /\ (forall j, 0 <= j < i -> ga t j = off (j + 1) keys) /\ forall j, i <= j <= n -> ga t j = cnt j keys) 1 (n + 1) (fun i start => let* x := vget start i in let* y := vget start (i - 1) in vset start i (x + y)) s) as (s' & E & L' & A & _).
    - lia.
    - split; auto. split; [|intros j Hj; apply Hs; lia]. intros j Hj. assert (j = 0) by lia. subst j. rewrite Hs, off_S, off_0 by (try lia; intros y I; apply keys_range in I; lia). lia.
    - intros i t Hi (Lt & A & B). rewrite !(vget_gv 0) by lia. cbn [bind]. rewrite vset_ok by lia. eexists. split; [reflexivity|]. split; [now rewrite zlen_zupd|]. split; intros j Hj; rewrite gv_zupd by lia; destruct (Z.eqb_spec i j) as [<-|Nj]; try lia.
      rewrite off_S, (B i), (A (i - 1)) by lia. replace (i - 1 + 1) with i by lia. lia.
    - exists s'. split; auto. split; auto. intros i Hi. apply A. lia.
  Qed.
  Notation gp := (gv (0, w0)).
  Lemma place_ok s : zlen s = n + 1 -> (forall i, 0 <= i <= n -> ga s i = off (i + 1) keys) ->
    exists ed st, for_each L (fun p s => csr_put (fst p) (snd p) s) (vrep (2 * zlen es) (0, w0), s) = Ok (ed, st) /\ zlen ed = zlen L /\ zlen st = n + 1 /\
      (forall i, 0 <= i <= n -> ga st i = off i keys) /\ forall x k, 0 <= x < n -> 0 <= k < cnt x keys -> gp ed (off (x + 1) keys - 1 - k) = gp (nbl L x) k.
  Proof.
    intros Ls Hs.
    destruct (for_each_inv (fun dn '(ed, st) => zlen ed = zlen L /\ zlen st = n + 1 /\ (forall i, 0 <= i <= n -> ga st i = off (i + 1) keys - cnt i (map fst dn)) /\
      forall x k, 0 <= x < n -> 0 <= k < cnt x (map fst dn) -> gp ed (off (x + 1) keys - 1 - k) = gp (nbl dn x) k) L (fun p s => csr_put (fst p) (snd p) s) (vrep (2 * zlen es) (0, w0), s)) as ((ed, st) & E & A & B & C & D).
    - split; [rewrite items_len; apply zlen_vrep; pose proof (size_nonneg es); lia|]. split; auto. split; [intros i Hi; rewrite Hs by auto; change (cnt i (map fst [])) with 0; lia|]. intros x k _ Hk. change (cnt x (map fst [])) with 0 in Hk. lia.
    - intros dn (u, it) td (ed, st) El (Le & Lt & Hst & Hed). cbn [fst snd]. assert (Ku : 0 <= u < n). { apply keys_range. apply in_map_iff. exists (u, it). split; auto. rewrite El. apply in_app_iff. right. now left. }
      unfold csr_put. rewrite (vget_gv 0) by lia. cbn [bind]. rewrite vset_ok by lia. cbn [bind].
      assert (Ck : forall x, cnt x keys = cnt x (map fst dn) + (if u =? x then 1 else 0) + cnt x (map fst td)). { intros x. rewrite El, map_app, cnt_app. cbn [map fst]. change (u :: map fst td) with ([u] ++ map fst td). rewrite cnt_app, cnt_one. lia. }
      pose proof (Ck u) as Cu. rewrite Z.eqb_refl in Cu. pose proof (cnt_nonneg u (map fst td)) as P1. pose proof (cnt_nonneg u (map fst dn)) as P2. pose proof (off_S u keys) as Os.
      assert (O0 : 0 <= off u keys) by apply size_nonneg. assert (On : off (u + 1) keys <= zlen L). { rewrite <- (zlen_map fst), <- (off_all n keys) by (intros y I; apply keys_range in I; lia). apply off_mono. lia. }
      rewrite Hst by lia. rewrite vset_ok by lia. cbn [bind]. eexists. split; [reflexivity|]. split; [now rewrite zlen_zupd|]. split; [now rewrite zlen_zupd|]. split.
      + intros i Hi. rewrite gv_zupd by lia. rewrite map_app, cnt_app. cbn [map fst]. rewrite cnt_one. destruct (Z.eqb_spec u i) as [<-|Ni]; [lia|]. rewrite Hst by lia. lia.
      + intros x k Hx Hk. rewrite map_app, cnt_app in Hk. cbn [map fst] in Hk. rewrite cnt_one in Hk. rewrite nbl_app. unfold nbl at 2. cbn [filter fst]. pose proof (nbl_cnt dn x) as Nx.
        assert (Px : 0 <= off (x + 1) keys - 1 - k < zlen L).
        { pose proof (off_S x keys). pose proof (Ck x). pose proof (cnt_nonneg x (map fst td)). assert (0 <= off x keys) by apply size_nonneg. assert (off (x + 1) keys <= zlen L). { rewrite <- (zlen_map fst), <- (off_all n keys) by (intros y I; apply keys_range in I; lia). apply off_mono. lia. } lia. }
        rewrite gv_zupd by lia. destruct (Z.eqb_spec u x) as [<-|Nu].
        * cbn [map snd]. destruct (Z.eqb_spec (off (u + 1) keys - cnt u (map fst dn) - 1) (off (u + 1) keys - 1 - k)) as [Ek|Nk].
          -- assert (k = cnt u (map fst dn)) by lia. subst k. symmetry. apply gv_vget. rewrite vget_mid by lia. reflexivity.
          -- rewrite Hed by lia. symmetry. apply gv_vget. rewrite vget_app1 by lia. apply vget_gv. lia.
        * cbn [map]. rewrite app_nil_r. destruct (Z.eqb_spec (off (u + 1) keys - cnt u (map fst dn) - 1) (off (x + 1) keys - 1 - k)) as [Ek|Nk]; [|apply Hed; lia].
          exfalso. pose proof (off_S x keys) as Ox. pose proof (Ck x) as Cx. rewrite (proj2 (Z.eqb_neq u x) Nu) in Cx. pose proof (cnt_nonneg x (map fst td)). destruct (Z.lt_trichotomy u x) as [Lt'|[Eq|Gt]]; [|lia|].
          -- pose proof (off_mono (u + 1) x keys ltac:(lia)). lia.
          -- pose proof (off_mono (x + 1) u keys ltac:(lia)). lia.
    - exists ed, st. split; auto. split; auto. split; auto. split; auto. intros i Hi. rewrite C by auto. rewrite off_S. lia.
  Qed.
  Theorem csr_ok : exists g, csr_new w0 n es = Ok g /\ forall u, 0 <= u < n -> csr_row g u = Ok (rev (nbrs es u)).
  Proof.
    unfold csr_new. destruct count_ok as (s & E & L1 & H1). rewrite E. cbn [bind]. destruct (prefix_ok s L1 H1) as (s' & E2 & L2 & H2). rewrite E2. cbn [bind]. rewrite put_items.
    destruct (place_ok s' L2 H2) as (ed & st & E3 & Le & Lt & Hst & Hed). rewrite E3. cbn [bind]. eexists. split; [reflexivity|]. intros u Hu. unfold csr_row. cbn [csr_start csr_edges]. rewrite !(vget_gv 0) by lia. cbn [bind]. rewrite !Hst by lia.
    pose proof (off_S u keys) as Os. pose proof (cnt_nonneg u keys). assert (O0 : 0 <= off u keys) by apply size_nonneg. assert (On : off (u + 1) keys <= zlen L). { rewrite <- (zlen_map fst), <- (off_all n keys) by (intros y I; apply keys_range in I; lia). apply off_mono. lia. }
    destruct ((0 <=? off u keys) && (off u keys <=? off (u + 1) keys) && (off (u + 1) keys <=? zlen ed)) eqn:B; [|lia]. f_equal. rewrite nbrs_items.
    pose proof (nbl_cnt L u) as Nc. rewrite Os, <- Nc, <- zlen_rev. apply (slice_gv (0, w0)); auto; [rewrite zlen_rev; lia|]. rewrite zlen_rev. intros i Hi.
    replace (off u keys + i) with (off (u + 1) keys - 1 - (cnt u keys - 1 - i)) by lia. rewrite Hed by lia. symmetry. apply gv_vget. apply HLD_proof6.vget_rev. split; auto. replace (zlen (nbl L u) - 1 - i) with (cnt u keys - 1 - i) by lia. apply vget_gv. lia.
  Qed.
End CSR.
