(* Proofs about LowLink_model: 2-edge-connected components. *)
From Verif Require Sieve_proof.
From Verif Require Import Base BaseLemmas ListZ Seq ListMore SpSeg_proof UnionFind_proof Kruskal_proof LowLink_spec LowLink_model LowLink_proof LowLink_proof2 LowLink_proof3 LowLink_proof4.
From Coq Require Import Sorted.

Section Q.
  Variable n : Z. Variable E : list (Z * Z). Variable s : ll. Variable G : Z -> list (Z * Z). Variable w : W. Variable rs : list Z.
  Hypothesis C : cert n E s G w rs.
  Notation vx v := (0 <= v < n).
  Notation P := (wP w). Notation A := (wA w). Notation L := (wL w). Notation T := (wT w). Notation Q := (wO w).
  Let HE : graph_on n E := c_on _ _ _ _ _ _ C.
  Let HG := ad_in _ _ _ (c_adj _ _ _ _ _ _ C).
  Let inj := c_inj _ _ _ _ _ _ C.
  Let PL := c_pl _ _ _ _ _ _ C.
  Let RI : forall r, In r rs <-> vx r /\ A r = -1 := c_rin _ _ _ _ _ _ C.
  Let bnd := c_bnd _ _ _ _ _ _ C.
  Let g1 := G1 n E G HE HG.
  Let g2 := G2 n E G HE HG.
  Notation head := (head w).
  Definition TI (c k : Z) (f : Z -> Z) : Prop :=
    0 <= k /\ (forall v, vx v -> c <= P v -> f v = -1) /\ (forall v, vx v -> P v < c -> 0 <= f v < k /\ (~ head v -> f v = f (A v))) /\
    (forall h h', vx h -> vx h' -> head h -> head h' -> P h < c -> P h' < c -> f h = f h' -> h = h') /\
    (forall i, 0 <= i < k -> exists h, vx h /\ head h /\ P h < c /\ f h = i).
  Definition ext (c : Z) (f f' : Z -> Z) : Prop := forall v, vx v -> P v < c -> f' v = f v.
  (* numbering the vertex with pre-order c *)
  Lemma TI_same c k f y : TI c k f -> vx y -> P y = c -> A y <> -1 -> L y <= P (A y) -> TI (c + 1) k (fupd f y (f (A y))).
  Proof.
    intros (K0 & I1 & I2 & I3 & I4) Vy Py N NL. destruct (par n E G HE HG w inj PL y Vy N) as (VA & _ & _ & PA & _). assert (NH : ~ head y) by (intros [X|X]; [congruence|lia]).
    assert (NE : forall v, vx v -> P v <> c -> v <> y) by (intros v Vv X ->; auto).
    split; [auto|]. split; [|split; [|split]].
    - intros v Vv X. rewrite fupd_diff by (apply NE; auto; lia). apply I1; auto. lia.
    - intros v Vv X. destruct (Z.eq_dec v y) as [->|Nv].
      + rewrite fupd_same. split; [apply I2; auto; lia|]. intros _. rewrite fupd_diff; [auto|]. intro Q0. rewrite Q0 in PA. lia.
      + assert (P v <> c) by (intro Q0; apply Nv, inj; auto; [apply PL; auto|lia]). rewrite fupd_diff by auto. destruct (I2 v Vv ltac:(lia)) as (X1 & X2). split; [auto|]. intro NHv. rewrite (X2 NHv).
        assert (Av : A v <> -1) by (intro Q0; apply NHv; left; auto). destruct (par n E G HE HG w inj PL v Vv Av) as (VAv & _ & _ & PAv & _). rewrite fupd_diff; [auto|]. intro Q0. rewrite Q0 in PAv. lia.
    - intros h h' Vh Vh' Hh Hh' Ph Ph'. assert (h <> y) by congruence. assert (h' <> y) by congruence. rewrite !fupd_diff by auto.
      assert (P h <> c) by (intro Q0; apply H, inj; auto; [apply PL; auto|lia]). assert (P h' <> c) by (intro Q0; apply H0, inj; auto; [apply PL; auto|lia]). apply I3; auto; lia.
    - intros i Hi. destruct (I4 i Hi) as (h & Vh & Hh & Ph & Fh). exists h. split; [auto|]. split; [auto|]. split; [lia|]. rewrite fupd_diff; auto. congruence.
  Qed.
  Lemma TI_new c k f y : TI c k f -> vx y -> P y = c -> head y -> TI (c + 1) (k + 1) (fupd f y k).
  Proof.
    intros (K0 & I1 & I2 & I3 & I4) Vy Py Hy.
    assert (NE : forall v, vx v -> v <> y -> P v < c + 1 -> P v < c). { intros v Vv N X. assert (P v <> c) by (intro Q0; apply N, inj; auto; [apply PL; auto|lia]). lia. }
    split; [lia|]. split; [|split; [|split]].
    - intros v Vv X. rewrite fupd_diff by (intros ->; lia). apply I1; auto. lia.
    - intros v Vv X. destruct (Z.eq_dec v y) as [->|Nv].
      + rewrite fupd_same. split; [lia|]. tauto.
      + rewrite fupd_diff by auto. destruct (I2 v Vv ltac:(auto)) as (X1 & X2). split; [lia|]. intro NHv. rewrite (X2 NHv).
        assert (Av : A v <> -1) by (intro Q0; apply NHv; left; auto). destruct (par n E G HE HG w inj PL v Vv Av) as (VAv & _ & _ & PAv & _). rewrite fupd_diff; [auto|]. intro Q0. rewrite Q0 in PAv. lia.
    - assert (FR : forall h, vx h -> h <> y -> P h < c + 1 -> f h <> k). { intros h Vh N X Q0. destruct (I2 h Vh ltac:(auto)) as (Y & _). lia. }
      intros h h' Vh Vh' Hh Hh' Ph Ph'. destruct (Z.eq_dec h y) as [->|Nh], (Z.eq_dec h' y) as [->|Nh']; auto; rewrite ?fupd_same, ?fupd_diff by auto; intro Q0.
      + exfalso. apply (FR h'); auto.
      + exfalso. apply (FR h); auto.
      + apply I3; auto.
    - intros i Hi. destruct (Z.eq_dec i k) as [->|Ni]; [exists y; rewrite fupd_same; split; [auto|split; [auto|split; [lia|auto]]]|].
      destruct (I4 i ltac:(lia)) as (h & Vh & Hh & Ph & Fh). exists h. split; [auto|]. split; [auto|]. split; [lia|]. rewrite fupd_diff; auto. intros ->. lia.
  Qed.
  (* one call of the search, given its loop *)
  Lemma te_enter fuel y p comp k f : vx y -> TI (P y) k f -> rep comp n f -> (p < 0 /\ A y = -1 \/ p = A y /\ vx p) ->
    exists comp1 k1 f1, te_dfs (S fuel) s y p (comp, k) = for_each (G y) (te_body (te_dfs fuel s) y) (comp1, k1) /\ rep comp1 n f1 /\ TI (P y + 1) k1 f1 /\ ext (P y) f f1.
  Proof.
    intros Vy I R Hp. cbn [te_dfs]. rewrite (rep_get _ _ _ y (c_g _ _ _ _ _ _ C) Vy).
    assert (NEW : head y -> exists comp1 k1 f1, (let* st := (let* comp := vset comp y k in Ok (comp, k + 1)) in let* adj := Ok (G y) in for_each adj (te_body (te_dfs fuel s) y) st) = for_each (G y) (te_body (te_dfs fuel s) y) (comp1, k1) /\ rep comp1 n f1 /\ TI (P y + 1) k1 f1 /\ ext (P y) f f1).
    { intro Hy. rewrite (rep_set _ _ _ y _ R Vy). cbn [bind]. eexists. eexists. exists (fupd f y k). split; [reflexivity|]. split; [apply rep_upd; auto|]. split; [apply TI_new; auto|]. intros v Vv X. apply fupd_diff. intros ->. lia. }
    destruct Hp as [(Hp & Ay)|(-> & Vp)].
    - destruct (Z.leb_spec 0 p); [lia|]. cbn [bind]. apply NEW. left. auto.
    - destruct (Z.leb_spec 0 (A y)); [|lia]. rewrite (rep_get _ _ _ y (c_low _ _ _ _ _ _ C) Vy), (rep_get _ _ _ (A y) (c_pre _ _ _ _ _ _ C) Vp). cbn [bind].
      destruct (Z.leb_spec (L y) (P (A y))); [|apply NEW; right; auto]. rewrite (rep_get _ _ _ (A y) R Vp). cbn [bind]. rewrite (rep_set _ _ _ y _ R Vy). cbn [bind].
      eexists. eexists. exists (fupd f y (f (A y))). split; [reflexivity|]. split; [apply rep_upd; auto|]. split; [apply TI_same; auto; lia|]. intros v Vv X. apply fupd_diff. intros ->. lia.
  Qed.
  Lemma ext_trans c c' f f1 f2 : c <= c' -> ext c f f1 -> ext c' f1 f2 -> ext c f f2.
  Proof. intros Lc X1 X2 v Vv X. rewrite X2 by (auto; lia). apply X1; auto. Qed.
  Lemma te_walk : forall u adj a a' bs ars, walk G w u adj a a' bs ars -> vx u -> incl adj (G u) ->
    forall fuel comp k f, TI (a_c a) k f -> rep comp n f -> n - a_c a <= Z.of_nat fuel ->
    exists comp' k' f', for_each adj (te_body (te_dfs fuel s) u) (comp, k) = Ok (comp', k') /\ rep comp' n f' /\ TI (a_c a') k' f' /\ ext (a_c a) f f'.
  Proof.
    intros u adj a a' bs ars H. induction H as [u a|u y adj c l ia ch a' bs ars Hy H IH|u y id adj c l ia ch a' bs ars N Hy H IH|u y id adj c l ia ch ia1 ch1 bs1 ars1 a' bs ars N EP EA ET H1 IH1 H2 IH2];
      intros Hu Hin fuel comp k f I R HF; cbn [a_c] in *; try (assert (Hin' : incl adj (G u)) by (intros e Ie; apply Hin; right; auto)).
    - exists comp, k, f. split; [reflexivity|]. split; [auto|]. split; [auto|]. intros v _ _. auto.
    - cbn [for_each]. unfold te_body at 1. cbn [fst]. assert (Vy : vx y) by (apply (g1 u y (T u)); auto; apply Hin; left; auto). rewrite (rep_get _ _ _ y R Vy). cbn [bind].
      destruct I as (K0 & I1 & I2 & I3). destruct (I2 y Vy ltac:(lia)) as (X & _). destruct (Z.ltb_spec (f y) 0); [lia|]. cbn [bind]. apply IH; auto. unfold TI; auto.
    - cbn [for_each]. unfold te_body at 1. cbn [fst]. assert (Vy : vx y) by (apply (g1 u y id); auto; apply Hin; left; auto). rewrite (rep_get _ _ _ y R Vy). cbn [bind].
      destruct I as (K0 & I1 & I2 & I3). destruct (I2 y Vy ltac:(lia)) as (X & _). destruct (Z.ltb_spec (f y) 0); [lia|]. cbn [bind]. apply IH; auto. unfold TI; auto.
    - pose proof (walk_mono _ _ _ _ _ _ _ _ H1) as M1. pose proof (walk_mono _ _ _ _ _ _ _ _ H2) as M2. cbn [a_c] in M1, M2.
      cbn [for_each]. unfold te_body at 1. cbn [fst]. assert (Vy : vx y) by (apply (g1 u y id); auto; apply Hin; left; auto). rewrite (rep_get _ _ _ y R Vy). cbn [bind].
      destruct (Z.ltb_spec (f y) 0) as [X|X]. 2:{ destruct I as (_ & I1 & _). rewrite I1 in X by (auto; lia). lia. }
      pose proof (bnd y Vy) as By. destruct fuel as [|fuel]; [lia|].
      destruct (te_enter fuel y u comp k f Vy ltac:(rewrite EP; auto) R ltac:(right; auto)) as (comp1 & k1 & f1 & E1 & R1 & T1 & X1). rewrite EP in *.
      destruct (IH1 Vy (incl_refl _) fuel comp1 k1 f1 T1 R1 ltac:(lia)) as (comp2 & k2 & f2 & E2 & R2 & T2 & X2).
      rewrite E1, E2. cbn [bind]. destruct (IH2 Hu Hin' (S fuel) comp2 k2 f2 T2 R2 ltac:(lia)) as (comp3 & k3 & f3 & E3 & R3 & T3 & X3).
      exists comp3, k3, f3. split; [exact E3|]. split; [auto|]. split; [auto|]. apply (ext_trans c (Q y) f f2 f3); [lia| |auto]. apply (ext_trans c (c + 1) f f1 f2); [lia|auto|auto].
  Qed.
  Lemma te_trees : forall i c bs ars rs', trees G w i c bs ars rs' -> i <= n -> 0 <= i -> exists comp k f, for_ 0 i (te_root s) (vrep n (-1), 0) = Ok (comp, k) /\ rep comp n f /\ TI c k f.
  Proof.
    intros i c bs ars rs' H. induction H as [|i c bs ars rs' H IH Hc|i c bs ars rs' ia ch bs1 ars1 H IH EP EA ET H1]; intros Hi Hi0.
    - exists (vrep n (-1)), 0, (fun _ => -1). split; [reflexivity|]. split; [apply rep_vrep; auto|]. split; [lia|]. split; [auto|]. split; [|split; [|intros; lia]]; intros v; [intros Vv X|intros h' Vv Vv' _ _ X]; destruct (PL v Vv); lia.
    - pose proof (trees_all n G g1 g2 w inj _ _ _ _ _ H ltac:(lia)) as (I0 & _). destruct (IH ltac:(lia) I0) as (comp & k & f & E1 & R & I). rewrite for_snoc, E1 by lia. cbn [bind]. unfold te_root. cbn [fst]. rewrite (rep_get _ _ _ i R) by lia. cbn [bind].
      destruct (Z.ltb_spec (f i) 0) as [X|X]; [|exists comp, k, f; auto]. destruct I as (_ & _ & I2 & _). destruct (I2 i ltac:(lia) ltac:(lia)) as (Y & _). lia.
    - pose proof (trees_all n G g1 g2 w inj _ _ _ _ _ H ltac:(lia)) as (I0 & _). destruct (IH ltac:(lia) I0) as (comp & k & f & E1 & R & I). rewrite for_snoc, E1 by lia. cbn [bind]. unfold te_root. cbn [fst]. rewrite (rep_get _ _ _ i R) by lia. cbn [bind].
      assert (Vi : vx i) by lia. destruct (Z.ltb_spec (f i) 0) as [X|X]. 2:{ destruct I as (_ & I1 & _). rewrite I1 in X by (auto; lia). lia. }
      destruct (te_enter (Z.to_nat (l_n s)) i (-1) comp k f Vi ltac:(rewrite EP; auto) R ltac:(left; split; [lia|auto])) as (comp1 & k1 & f1 & X1 & R1 & T1 & _). rewrite X1. rewrite EP in *.
      destruct (te_walk _ _ _ _ _ _ H1 Vi (incl_refl _) (Z.to_nat (l_n s)) comp1 k1 f1 T1 R1) as (comp2 & k2 & f2 & X2 & R2 & T2 & _). { rewrite (c_n _ _ _ _ _ _ C). cbn [a_c]. destruct (PL i Vi). lia. }
      exists comp2, k2, f2. rewrite X2. auto.
  Qed.
  (* all numbered *)
  Definition numbered (t : te) (f : Z -> Z) : Prop :=
    e_ll t = s /\ rep (e_comp t) n f /\ 0 <= e_num t /\ (forall v, vx v -> 0 <= f v < e_num t) /\ (forall i, 0 <= i < e_num t -> exists v, vx v /\ f v = i) /\
    (forall u v, vx u -> vx v -> (f u = f v <-> two_edge_connected E u v)).
  Lemma search_ok : 0 <= n -> exists t f, te_search s (vrep n (-1)) = Ok t /\ numbered t f.
  Proof.
    intro Hn. destruct (c_tr _ _ _ _ _ _ C) as (bs & ars & TR). pose proof (trees_all n G g1 g2 w inj _ _ _ _ _ TR ltac:(lia)) as (_ & _ & T3 & _).
    destruct (te_trees _ _ _ _ _ TR ltac:(lia) Hn) as (comp & k & f & E1 & R & K0 & I1 & I2 & I3 & I4). unfold te_search. rewrite (c_n _ _ _ _ _ _ C), E1. cbn [bind].
    assert (B : forall v, vx v -> P v < d_ord (l_ds s)) by (intros v Vv; apply T3; auto; lia).
    eexists. exists f. split; [reflexivity|]. split; [reflexivity|]. cbn [e_comp e_num]. split; [auto|]. split; [auto|]. split; [intros v Vv; apply I2; auto|]. split.
    - intros i Hi. destruct (I4 i Hi) as (h & Vh & _ & _ & X). exists h. auto.
    - intros u v Vu Vv. apply (tec_iff n E G HE HG w inj PL rs RI f u v); auto. intros x Vx. apply I2; auto.
  Qed.
  (* queries *)
  Variable t : te. Variable f : Z -> Z.
  Hypothesis NB : numbered t f.
  Lemma t_built : l_built (e_ll t) = true. Proof. destruct NB as (-> & _). apply C. Qed.
  Lemma te_get_ok v : vx v -> te_get t v = Ok (f v).
  Proof. intro Vv. unfold te_get. rewrite t_built. cbn [assert_ bind]. apply (rep_get _ _ _ v (proj1 (proj2 NB)) Vv). Qed.
  Lemma te_num_ok : te_num t = Ok (e_num t).
  Proof. unfold te_num. rewrite t_built. reflexivity. Qed.
  Lemma groups_ok : 0 <= n -> exists gs, te_groups t = Ok gs /\ zlen gs = e_num t /\
    forall k g, vget gs k = Ok g -> StronglySorted Z.lt g /\ forall v, In v g <-> vx v /\ te_get t v = Ok k.
  Proof.
    intro Hn. pose proof NB as (Es & R & K0 & FR & _). unfold te_groups. rewrite t_built. cbn [assert_ bind]. rewrite Es, (c_n _ _ _ _ _ _ C).
    destruct (for_inv (fun i r => rep r (e_num t) (fun c => filter (fun v => f v =? c) (zrange i))) 0 n (fun i r => let* c := vget (e_comp t) i in let* x := vget r c in vset r c (x ++ [i])) (vrep (e_num t) [])) as (gs & X & RG); auto.
    - apply rep_vrep; auto.
    - intros i r Hi Rr. rewrite (rep_get _ _ _ i R Hi). cbn [bind]. specialize (FR i Hi). rewrite (rep_get _ _ _ (f i) Rr FR). cbn [bind]. rewrite (rep_set _ _ _ (f i) _ Rr FR). eexists. split; [reflexivity|].
      eapply rep_ext; [apply rep_upd; [exact Rr|exact FR]|]. intros c Hc. cbn beta. rewrite zrange_S, filter_snoc by lia. destruct (Z.eq_dec c (f i)) as [->|Nc].
      + rewrite fupd_same, Z.eqb_refl. reflexivity.
      + rewrite fupd_diff by auto. destruct (Z.eqb_spec (f i) c); [congruence|]. rewrite app_nil_r. reflexivity.
    - exists gs. split; [exact X|]. split; [apply RG|]. intros k g Hg. pose proof (vget_range _ _ _ Hg) as Rk. assert (zlen gs = e_num t) as Lg by apply RG. rewrite Lg in Rk. rewrite (rep_get _ _ _ k RG Rk) in Hg. injection Hg as <-. split.
      + assert (SS : forall m, 0 <= m -> StronglySorted Z.lt (zrange m)).
        { intros m Hm. replace m with (Z.of_nat (Z.to_nat m)) by lia. generalize (Z.to_nat m) as q. induction q as [|q IH]; [constructor|]. rewrite Nat2Z.inj_succ. unfold Z.succ. rewrite zrange_S by lia. apply Sieve_proof.sorted_snoc; [exact IH|]. intros x Ix. apply In_zrange in Ix. lia. }
        assert (FS : forall l, StronglySorted Z.lt l -> StronglySorted Z.lt (filter (fun v => f v =? k) l)).
        { induction 1 as [|x l SL IH FA]; cbn [filter]; [constructor|]. destruct (f x =? k); auto. constructor; auto. rewrite Forall_forall in *. intros y Iy. apply filter_In in Iy. apply FA; tauto. }
        apply FS, SS; auto.
      + intro v. rewrite filter_In, In_zrange, Z.eqb_eq. split; intros (X1 & X2); (split; [auto|]); [rewrite te_get_ok by auto; congruence|rewrite te_get_ok in X2 by auto; congruence].
  Qed.
  Definition fe (c u : Z) : list (Z * Z) := if f u =? c then map (fun e => (f (fst e), snd e)) (filter (fun e => negb (f (fst e) =? c)) (G u)) else [].
  Lemma In_fe c u c' id : In (c', id) (fe c u) <-> f u = c /\ c' <> c /\ exists v, In (v, id) (G u) /\ f v = c'.
  Proof.
    unfold fe. destruct (Z.eqb_spec (f u) c) as [Q0|Q0]; [|split; [intros []|tauto]]. rewrite in_map_iff. split.
    - intros ((v & i) & X & I). cbn [fst snd] in X. injection X as <- <-. apply filter_In in I. cbn [fst] in I. destruct I as (I & N). apply Bool.negb_true_iff, Z.eqb_neq in N. split; [auto|]. split; [auto|]. exists v. auto.
    - intros (_ & N & v & I & <-). exists (v, id). split; [auto|]. apply filter_In. cbn [fst]. split; [auto|]. apply Bool.negb_true_iff, Z.eqb_neq. auto.
  Qed.
  Lemma forest_loop : 0 <= n -> exists r, te_forest t = Ok r /\ rep r (e_num t) (fun c => flat_map (fe c) (zrange n)).
  Proof.
    intro Hn. pose proof NB as (Es & R & K0 & FR & _). unfold te_forest. rewrite t_built. cbn [assert_ bind]. rewrite Es, (c_n _ _ _ _ _ _ C).
    apply (for_inv (fun i r => rep r (e_num t) (fun c => flat_map (fe c) (zrange i))) 0 n (fun u r => let* adj := vget (l_g s) u in for_each adj (te_forest_body t u) r) (vrep (e_num t) [])); auto.
    - apply rep_vrep; auto.
    - intros u r Hu Rr. rewrite (rep_get _ _ _ u (c_g _ _ _ _ _ _ C) Hu). cbn [bind].
      destruct (for_each_inv (fun done r' => rep r' (e_num t) (fun c => flat_map (fe c) (zrange u) ++ if f u =? c then map (fun e => (f (fst e), snd e)) (filter (fun e => negb (f (fst e) =? c)) done) else [])) (G u) (te_forest_body t u) r) as (r' & X & R').
      + eapply rep_ext; [exact Rr|]. intros c Hc. cbn beta. destruct (f u =? c); rewrite ?app_nil_r; reflexivity.
      + intros done (v, id) tl r' Eg R'. assert (Iv : In (v, id) (G u)) by (rewrite Eg; apply in_or_app; right; left; auto). destruct (g1 u v id Hu Iv) as (Vv & _). unfold te_forest_body. rewrite (te_get_ok u Hu), (te_get_ok v Vv). cbn [bind].
        destruct (Z.eqb_spec (f u) (f v)) as [Q0|Q0].
        * eexists. split; [reflexivity|]. eapply rep_ext; [exact R'|]. intros c Hc. cbn beta. destruct (Z.eqb_spec (f u) c) as [Q1|Q1]; [|reflexivity]. rewrite filter_snoc. cbn [fst]. destruct (Z.eqb_spec (f v) c); [|congruence]. cbn [negb]. rewrite app_nil_r. reflexivity.
        * specialize (FR u Hu). rewrite (rep_get _ _ _ (f u) R' FR). cbn [bind]. rewrite (rep_set _ _ _ (f u) _ R' FR). eexists. split; [reflexivity|].
          eapply rep_ext; [apply rep_upd; [exact R'|exact FR]|]. intros c Hc. cbn beta. destruct (Z.eq_dec c (f u)) as [->|Nc].
          -- rewrite fupd_same, Z.eqb_refl, filter_snoc. cbn [fst]. destruct (Z.eqb_spec (f v) (f u)); [congruence|]. cbn [negb]. rewrite map_app, app_assoc. reflexivity.
          -- rewrite fupd_diff by auto. destruct (Z.eqb_spec (f u) c); [congruence|]. reflexivity.
      + exists r'. split; [exact X|]. eapply rep_ext; [exact R'|]. intros c Hc. cbn beta. rewrite zrange_S, flat_map_app by lia. cbn [flat_map]. rewrite app_nil_r. reflexivity.
  Qed.
  Lemma cross_bridge u v id : vx u -> In (v, id) (G u) -> (f u <> f v <-> bridge E id).
  Proof.
    intros Vu I. destruct (g1 u v id Vu I) as (Vv & _). destruct NB as (_ & _ & _ & _ & _ & TE).
    assert (X : vget E id = Ok (u, v) \/ vget E id = Ok (v, u)) by (apply HG; auto). assert (Hi : 0 <= id < zlen E) by (destruct X as [X|X]; apply vget_range in X; auto).
    assert (EC : connected E u v). { destruct X as [X|X]; apply vget_In in X; [|apply connected_sym]; apply connected_edge; auto. }
    rewrite (TE u v Vu Vv). split.
    - intro N. assert (D : bridge E id \/ ~ bridge E id).
      { destruct (Z.le_ge_cases (P u) (P v)).
        - pose proof (edge_bridge n E G HE HG w inj PL rs RI u v id Vu I H) as B. destruct (Z_lt_le_dec (P u) (L v)); [left; apply B; auto|right; intro Y; apply B in Y; lia].
        - pose proof (edge_bridge n E G HE HG w inj PL rs RI v u id Vv (G_sym n E G HE HG _ _ _ Vu I) ltac:(lia)) as B. destruct (Z_lt_le_dec (P v) (L u)); [left; apply B; auto|right; intro Y; apply B in Y; lia]. }
      destruct D as [D|D]; [auto|]. exfalso. apply N. split; [auto|]. intros j Hj. destruct (Z.eq_dec j id) as [->|Nj].
      + destruct (tree_dec n w id) as [(y & Vy & Ny & Ty)|Y]; [|apply (nontree_all n E G HE HG w inj PL); auto]. rewrite <- Ty. apply (nonhead_all n E G HE HG w inj PL); auto.
        destruct (Z_le_gt_dec (L y) (P (A y))); [auto|]. exfalso. apply D. rewrite <- Ty. apply (head_bridge n E G HE HG w inj PL); auto. lia.
      + destruct X as [X|X]; [|apply connected_sym]; apply connected_edge, in_without_edge; auto; exists id; auto.
    - intros (_ & a & b & C1 & C2) (_ & TC). apply C2. apply (stays_all E id a b); auto. intros x y Y. specialize (TC id Hi). destruct X as [X|X]; rewrite Y in X; injection X as -> ->; [auto|apply connected_sym; auto].
  Qed.
  Lemma forest_ok : 0 <= n -> exists r, te_forest t = Ok r /\ zlen r = e_num t /\ forall c es, vget r c = Ok es -> NoDup (map snd es) /\
    forall c' id, In (c', id) es <-> bridge E id /\ exists u v, joins E id u v /\ te_get t u = Ok c /\ te_get t v = Ok c'.
  Proof.
    intro Hn. destruct (forest_loop Hn) as (r & X & R). exists r. split; [auto|]. split; [apply R|]. intros c es He. pose proof (vget_range _ _ _ He) as Rc. assert (zlen r = e_num t) as Lr by apply R. rewrite Lr in Rc. rewrite (rep_get _ _ _ c R Rc) in He. injection He as <-. split.
    - assert (K : forall l, NoDup l -> (forall u, In u l -> vx u) -> NoDup (map snd (flat_map (fe c) l))).
      { induction l as [|u l IH]; intros Nl Vl; [constructor|]. inversion Nl; subst. cbn [flat_map]. rewrite map_app. assert (Vu : vx u) by (apply Vl; left; auto). apply NoDup_app3. split; [|split; [apply IH; auto; intros; apply Vl; right; auto|]].
        - unfold fe. destruct (Z.eqb_spec (f u) c) as [Q0|]; [|constructor]. rewrite map_map. cbn [snd]. pose proof (ad_nd _ _ _ (c_adj _ _ _ _ _ _ C) u Vu) as ND. revert ND. generalize (G u) as gl. clear - Q0. induction gl as [|(y, i) gl IH]; cbn [filter]; intro ND; [constructor|].
          cbn [fst] in *. destruct (Z.eqb_spec y u) as [->|Ny]; cbn [negb] in *.
          + rewrite Q0, Z.eqb_refl. cbn [negb]. auto.
          + cbn [map snd] in ND. inversion ND; subst. destruct (Z.eqb_spec (f y) (f u)) as [Q1|Q1]; cbn [negb map snd]; [auto|]. constructor; auto. intro I. apply H1. apply in_map_iff in I. destruct I as ((y' & i') & Y & I). cbn [snd] in Y. subst i'. apply filter_In in I. destruct I as (I & J).
            apply in_map_iff. exists (y', i). split; [auto|]. apply filter_In. split; [auto|]. cbn [fst] in *. destruct (Z.eqb_spec y' u) as [->|]; [rewrite Z.eqb_refl in J; discriminate|reflexivity].
        - intros id I1 I2. apply in_map_iff in I1. destruct I1 as ((c1 & i1) & Y1 & I1). cbn [snd] in Y1. subst i1. apply in_map_iff in I2. destruct I2 as ((c2 & i2) & Y2 & I2). cbn [snd] in Y2. subst i2. apply in_flat_map in I2. destruct I2 as (u' & Iu' & I2).
          assert (Vu' : vx u') by (apply Vl; right; auto). apply In_fe in I1. apply In_fe in I2. destruct I1 as (F1 & N1 & v & J1 & F1'), I2 as (F2 & N2 & v' & J2 & F2').
          apply HG in J1; auto. apply HG in J2; auto. assert (u <> u') by congruence. destruct J1 as [J1|J1], J2 as [J2|J2]; rewrite J1 in J2; injection J2 as Z1 Z2; congruence. }
      apply K; [apply NoDup_zrange|]. intros u Iu. apply In_zrange in Iu. auto.
    - intros c' id. rewrite in_flat_map. split.
      + intros (u & Iu & I). apply In_zrange in Iu. apply In_fe in I. destruct I as (F1 & N1 & v & J1 & F1'). destruct (g1 u v id Iu J1) as (Vv & _). split; [apply (cross_bridge u v id Iu J1); congruence|].
        exists u, v. split; [|rewrite !te_get_ok by auto; split; congruence]. apply HG in J1; auto. split; [destruct J1 as [J1|J1]; apply vget_range in J1; auto|]. destruct J1 as [J1|J1]; apply vget_nth_error in J1; auto.
      + intros (B & u & v & J & Fu & Fv). destruct (joins_G n E s G w rs C u v id J) as (Vu & Vv & I1 & I2). rewrite te_get_ok in Fu, Fv by auto. injection Fu as Fu. injection Fv as Fv. exists u. split; [apply In_zrange; auto|]. apply In_fe. split; [auto|].
        split; [|exists v; auto]. apply (cross_bridge u v id Vu I1) in B. congruence.
  Qed.
End Q.
Lemma te_make_ok n es : 0 <= n -> graph_on n es -> exists t s G w rs f, te_make n es = Ok t /\ ll_make n es = Ok s /\ cert n es s G w rs /\ numbered n es s t f.
Proof.
  intros Hn Hes. destruct (make_ok n es Hn Hes) as (s & G & w & rs & X & C). unfold te_make. rewrite X. cbn [bind]. rewrite (c_n _ _ _ _ _ _ C).
  destruct (search_ok n es s G w rs C Hn) as (t & f & Y & N). exists t, s, G, w, rs, f. auto.
Qed.
